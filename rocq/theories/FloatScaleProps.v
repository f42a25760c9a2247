(** C143: auditory scales in floating point. *)
From Coq Require Import ZArith Reals List Bool Lia Lra Psatz.
From Flocq Require Import Core BinarySingleNaN Relative.
From Verif Require Import Base FloatModel FloatSpec FloatProofs FloatProps FloatOrderProps FloatEnergyProps FloatWaveModel FloatWaveProps FloatFeatProps FloatNumModel FloatCosineModel FloatCosineProps FloatScaleModel.
Import ListNotations.
Local Open Scope R_scope.

(** A library function that never decreases, from a given number on. *)
Definition rising {p e p' e'} (from : binary_float p e) (g : binary_float p e -> binary_float p' e') : Prop :=
  forall x y, le from x -> le x y -> le (g x) (g y).

Section Ops.
Context (prec emax : Z) {Hprec : Prec_gt_0 prec} {Hmax : Prec_lt_emax prec emax}.
Notation fl := (binary_float prec emax).
Notation rnd := (round radix2 (FLT_exp (3 - emax - prec) prec) ZnearestE).
Notation val := (@B2R prec emax).
Notation lev := (level prec emax).
Notation mul := (fmul prec emax).
Notation div := (fdiv prec emax).
Notation add := (fadd prec emax).
Notation sub := (fsub prec emax).
Notation top := (bpow radix2 emax).

Definition clamp (z : R) : R := Rmax (- top) (Rmin top (rnd z)).
Lemma clamp_le x y : x <= y -> clamp x <= clamp y.
Proof. intros H. unfold clamp. apply (rnd_le prec emax) in H. unfold Rmax, Rmin. repeat destruct (Rle_dec _ _); lra. Qed.
Lemma clamp_in z : Rabs (rnd z) < top -> clamp z = rnd z.
Proof. intros H. apply Rabs_def2 in H. unfold clamp. rewrite Rmin_right, Rmax_right; lra. Qed.
Lemma clamp_out z (s : bool) : top <= Rabs (rnd z) -> (if s then z <= 0 else 0 <= z) -> clamp z = level prec emax (B754_infinity s).
Proof.
  intros H S. pose proof (bpow_gt_0 radix2 emax) as T. unfold clamp. cbn [level]. destruct s.
  - apply (rnd_le prec emax) in S. rewrite (rnd_0 prec emax) in S. rewrite Rabs_left1 in H by exact S. rewrite Rmin_right, Rmax_left; lra.
  - apply (rnd_le prec emax) in S. rewrite (rnd_0 prec emax) in S. rewrite Rabs_pos_eq in H by exact S. rewrite Rmin_left, Rmax_right; lra.
Qed.
(** An operation whose levels are a non-decreasing function, clamped, keeps the order. *)
Lemma keeps_order {p e} (g : binary_float p e -> fl) (h : R -> R) :
  (forall x, finite x -> is_nan (g x) = false /\ lev (g x) = clamp (h (B2R x))) -> (forall s, g (B754_infinity s) = B754_infinity s) ->
  (forall x y, x <= y -> h x <= h y) -> forall x y, le x y -> le (g x) (g y).
Proof.
  intros F I M x y L. apply leb_true in L. destruct L as [Nx [Ny L]]. apply leb_true.
  assert (NN : forall z, is_nan z = false -> is_nan (g z) = false).
  { intros z Nz. destruct z as [s|s| |s m ex B]; try discriminate; [apply F; reflexivity|rewrite I; reflexivity|apply F; reflexivity]. }
  split; [auto|]. split; [auto|]. pose proof (level_bound prec emax (g x)) as Bx. pose proof (level_bound prec emax (g y)) as By.
  destruct (is_finite x) eqn:Fx; destruct (is_finite y) eqn:Fy.
  - destruct (F x Fx) as [_ ->]. destruct (F y Fy) as [_ ->]. rewrite !level_fin in L by assumption. apply clamp_le, M, L.
  - destruct y as [s|[]| |s m ex B]; try discriminate.
    + exfalso. rewrite level_fin in L by exact Fx. cbn [level] in L. pose proof (val_bound p e x) as V. apply Rabs_def2 in V. lra.
    + rewrite I. cbn [level]. lra.
  - destruct x as [s|[]| |s m ex B]; try discriminate.
    + rewrite I. cbn [level]. lra.
    + exfalso. rewrite (level_fin _ _ y) in L by exact Fy. cbn [level] in L. pose proof (val_bound p e y) as V. apply Rabs_def2 in V. lra.
  - destruct x as [s|[]| |s m ex B]; try discriminate; destruct y as [s'|[]| |s' m' ex' B']; try discriminate; rewrite !I; cbn [level] in *; pose proof (bpow_gt_0 radix2 emax); pose proof (bpow_gt_0 radix2 e); lra.
Qed.
Lemma sign_pos (c : fl) : 0 < val c -> exists m ex B, c = B754_finite false m ex B.
Proof.
  intros P. destruct c as [s|s| |[] m ex B]; cbn in P; try lra; [|eauto]. exfalso. assert (H := F2R_lt_0 radix2 (Float radix2 (Zneg m) ex) ltac:(reflexivity)). cbn in *. lra.
Qed.
Lemma sign_le (x : fl) : finite x -> if Bsign x then val x <= 0 else 0 <= val x.
Proof.
  intros F. destruct x as [s|s| |[] m ex B]; try discriminate; cbn [Bsign B2R].
  - destruct s; lra.
  - left. apply F2R_lt_0. reflexivity.
  - left. apply F2R_gt_0. reflexivity.
Qed.
Lemma mul_rises c x y : finite c -> 0 < val c -> le x y -> le (mul c x) (mul c y).
Proof.
  intros Fc Pc. apply (keeps_order (mul c) (fun z => val c * z)).
  - intros z Fz. destruct (mul_cases prec emax c z Fc Fz) as [[B [V F]]|[O E]].
    + split; [apply fin_not_nan; exact F|]. rewrite level_fin by exact F. rewrite V, clamp_in by exact B. reflexivity.
    + rewrite E. split; [reflexivity|]. symmetry. apply clamp_out; [exact O|]. pose proof (sign_le z Fz) as S. destruct (sign_pos c Pc) as [m [ex [B ->]]]. cbn [Bsign xorb]. destruct (Bsign z); nra.
  - intros s. destruct (sign_pos c Pc) as [m [ex [B ->]]]. destruct s; reflexivity.
  - intros a b H. apply Rmult_le_compat_l; lra.
Qed.
Lemma mul_rises_r c x y : finite c -> 0 < val c -> le x y -> le (mul x c) (mul y c).
Proof.
  intros Fc Pc. apply (keeps_order (fun z => mul z c) (fun z => z * val c)).
  - intros z Fz. destruct (mul_cases prec emax z c Fz Fc) as [[B [V F]]|[O E]].
    + split; [apply fin_not_nan; exact F|]. rewrite level_fin by exact F. rewrite V, clamp_in by exact B. reflexivity.
    + rewrite E. split; [reflexivity|]. symmetry. apply clamp_out; [exact O|]. pose proof (sign_le z Fz) as S. destruct (sign_pos c Pc) as [m [ex [B ->]]]. cbn [Bsign]. rewrite xorb_false_r. destruct (Bsign z); nra.
  - intros s. destruct (sign_pos c Pc) as [m [ex [B ->]]]. destruct s; reflexivity.
  - intros a b H. apply Rmult_le_compat_r; lra.
Qed.
Lemma div_rises c x y : finite c -> 0 < val c -> le x y -> le (div x c) (div y c).
Proof.
  intros Fc Pc. assert (I : 0 < / val c) by (apply Rinv_0_lt_compat; exact Pc). apply (keeps_order (fun z => div z c) (fun z => z / val c)).
  - intros z Fz. destruct (div_cases prec emax z c Fz ltac:(lra)) as [[B [V [F _]]]|[O E]].
    + split; [apply fin_not_nan; exact F|]. rewrite level_fin by exact F. rewrite V, clamp_in by exact B. reflexivity.
    + rewrite E. split; [reflexivity|]. symmetry. apply clamp_out; [exact O|]. pose proof (sign_le z Fz) as S. destruct (sign_pos c Pc) as [m [ex [B ->]]]. cbn [Bsign]. rewrite xorb_false_r. unfold Rdiv. destruct (Bsign z); nra.
  - intros s. destruct (sign_pos c Pc) as [m [ex [B ->]]]. destruct s; reflexivity.
  - intros a b H. unfold Rdiv. apply Rmult_le_compat_r; lra.
Qed.
Lemma add_rises c x y : finite c -> le x y -> le (add c x) (add c y).
Proof.
  intros Fc. apply (keeps_order (add c) (fun z => val c + z)).
  - intros z Fz. destruct (add_cases prec emax c z Fc Fz) as [[B [V F]]|[O [E S2]]].
    + split; [apply fin_not_nan; exact F|]. rewrite level_fin by exact F. rewrite V, clamp_in by exact B. reflexivity.
    + rewrite E. split; [reflexivity|]. symmetry. apply clamp_out; [exact O|]. pose proof (sign_le z Fz) as S. pose proof (sign_le c Fc) as S'. rewrite <- S2 in S. destruct (Bsign c); lra.
  - intros s. destruct c as [?|?| |? ? ? ?]; try discriminate; reflexivity.
  - intros a b H. lra.
Qed.
Lemma sub_rises c x y : finite c -> le x y -> le (sub x c) (sub y c).
Proof.
  intros Fc. apply (keeps_order (fun z => sub z c) (fun z => z - val c)).
  - intros z Fz. destruct (sub_cases prec emax z c Fz Fc) as [[B [V F]]|[O [E S2]]].
    + split; [apply fin_not_nan; exact F|]. rewrite level_fin by exact F. rewrite V, clamp_in by exact B. reflexivity.
    + rewrite E. split; [reflexivity|]. symmetry. apply clamp_out; [exact O|]. pose proof (sign_le z Fz) as S. pose proof (sign_le c Fc) as S'. destruct (Bsign z), (Bsign c); try discriminate; lra.
  - intros s. destruct c as [?|?| |? ? ? ?]; try discriminate; reflexivity.
  - intros a b H. lra.
Qed.
Lemma conv_rises {p e} (x y : binary_float p e) : le x y -> le (fconv prec emax x) (fconv prec emax y).
Proof.
  apply (keeps_order (fconv prec emax) (fun z => z)); [|reflexivity|auto].
  intros z Fz. destruct (Rlt_le_dec (Rabs (rnd (B2R z))) top) as [H|H].
  - destruct (conv_value prec emax z Fz H) as [F V]. split; [apply fin_not_nan; exact F|]. rewrite level_fin by exact F. rewrite V, clamp_in by exact H. reflexivity.
  - destruct z as [s|s| |s m ex B]; try discriminate.
    + exfalso. cbn [B2R] in H. rewrite (rnd_0 prec emax), Rabs_R0 in H. pose proof (bpow_gt_0 radix2 emax). lra.
    + cbn [fconv]. set (z := B2R (B754_finite s m ex B)) in *. pose proof (binary_normalize_correct prec emax Hprec Hmax mode_NE (cond_Zopp s (Zpos m)) ex s) as C. cbv zeta in C.
      change (F2R (Float radix2 (cond_Zopp s (Zpos m)) ex)) with z in C. rewrite Rlt_bool_false in C by exact H.
      set (r := binary_normalize prec emax Hprec Hmax mode_NE (cond_Zopp s (Zpos m)) ex s) in *.
      assert (R : r = B754_infinity (Rlt_bool z 0)) by (apply B2SF_inj; exact C).
      rewrite R. split; [reflexivity|]. symmetry. apply clamp_out; [exact H|]. destruct (Rlt_bool_spec z 0); lra.
Qed.
End Ops.

Section Order.
Context (prec emax : Z) {Hprec : Prec_gt_0 prec} {Hmax : Prec_lt_emax prec emax}.
Notation fl := (binary_float prec emax).
Notation zero := (fzero prec emax).
Notation dzero := (fzero 53 1024).
Lemma lit_pos (c : double) : is_finite c = true -> Bltb dzero c = true -> finite c /\ 0 < B2R c.
Proof. intros F L. split; [exact F|]. apply ltb_true in L. destruct L as [_ [_ L]]. rewrite (level_fin _ _ c) in L by exact F. exact L. Qed.
Ltac lit := apply lit_pos; vm_compute; reflexivity.
Lemma le_trans' {p e} (x y z : binary_float p e) : le x y -> le y z -> le x z.
Proof. intros A B. apply leb_true in A, B. apply leb_true. destruct A as [A1 [A2 A3]], B as [B1 [B2 B3]]. repeat split; auto. lra. Qed.

(** The order of pitches is the order of frequencies on the mel and ERB scales, in both directions, whatever
    the accuracy of the library, as long as its functions never decrease; infinities included. *)
Theorem C143_mel_order (g : double -> double) f1 f2 : rising dzero g -> le zero f1 -> le f1 f2 -> le (f_hertz2mel prec emax g f1) (f_hertz2mel prec emax g f2).
Proof.
  intros R Z L. unfold f_hertz2mel. apply conv_rises. apply (mul_rises 53 1024); [apply lit_pos; vm_compute; reflexivity|apply lit_pos; vm_compute; reflexivity|]. apply R.
  - apply le_trans' with (fdiv 53 1024 (fconv 53 1024 zero) (of_Z 53 1024 700)); [vm_compute; reflexivity|]. apply (div_rises 53 1024); [apply lit_pos; vm_compute; reflexivity|apply lit_pos; vm_compute; reflexivity|]. apply conv_rises. exact Z.
  - apply (div_rises 53 1024); [apply lit_pos; vm_compute; reflexivity|apply lit_pos; vm_compute; reflexivity|]. apply conv_rises. exact L.
Qed.
Theorem C143_erb_order (g : double -> double) f1 f2 : rising (dbl 1) g -> le zero f1 -> le f1 f2 -> le (f_hertz2erb prec emax g f1) (f_hertz2erb prec emax g f2).
Proof.
  intros R Z L. unfold f_hertz2erb. apply conv_rises. apply (mul_rises 53 1024); [apply lit_pos; vm_compute; reflexivity|apply lit_pos; vm_compute; reflexivity|].
  assert (M : forall a b : fl, le a b -> le (fadd 53 1024 (of_Z 53 1024 1) (fdiv 53 1024 (fmul 53 1024 (dlit 437 100) (fconv 53 1024 a)) (of_Z 53 1024 1000)))
    (fadd 53 1024 (of_Z 53 1024 1) (fdiv 53 1024 (fmul 53 1024 (dlit 437 100) (fconv 53 1024 b)) (of_Z 53 1024 1000)))).
  { intros a b H. apply (add_rises 53 1024); [vm_compute; reflexivity|]. apply (div_rises 53 1024); [apply lit_pos; vm_compute; reflexivity|apply lit_pos; vm_compute; reflexivity|].
    apply (mul_rises 53 1024); [apply lit_pos; vm_compute; reflexivity|apply lit_pos; vm_compute; reflexivity|]. apply conv_rises. exact H. }
  apply R; [|apply M; exact L]. eapply le_trans'; [|apply (M zero); exact Z]. vm_compute. reflexivity.
Qed.
Theorem C143_mel_inverse_order (g : double -> double) m1 m2 : (forall x y, le x y -> le (g x) (g y)) -> le m1 m2 -> le (f_mel2hertz prec emax g m1) (f_mel2hertz prec emax g m2).
Proof.
  intros R L. unfold f_mel2hertz. apply conv_rises. apply (mul_rises 53 1024); [apply lit_pos; vm_compute; reflexivity|apply lit_pos; vm_compute; reflexivity|]. apply R.
  apply (div_rises 53 1024); [apply lit_pos; vm_compute; reflexivity|apply lit_pos; vm_compute; reflexivity|]. apply conv_rises. exact L.
Qed.
Theorem C143_erb_inverse_order (g : double -> double -> double) m1 m2 : (forall x y, le x y -> le (g (dbl 10) x) (g (dbl 10) y)) -> le m1 m2 ->
  le (f_erb2hertz prec emax g m1) (f_erb2hertz prec emax g m2).
Proof.
  intros R L. unfold f_erb2hertz. apply conv_rises. apply (div_rises 53 1024); [apply lit_pos; vm_compute; reflexivity|apply lit_pos; vm_compute; reflexivity|].
  apply (mul_rises_r 53 1024); [apply lit_pos; vm_compute; reflexivity|apply lit_pos; vm_compute; reflexivity|]. apply (sub_rises 53 1024); [vm_compute; reflexivity|]. apply R.
  apply (div_rises 53 1024); [apply lit_pos; vm_compute; reflexivity|apply lit_pos; vm_compute; reflexivity|]. apply conv_rises. exact L.
Qed.
End Order.

(** The Bark scale of doubles does not keep the order: two neighbours just above 1 kHz are swapped. *)
Definition khz1 : double := binary_normalize 53 1024 eq_refl eq_refl mode_NE 8796093022208013 (-43) false.
Definition khz1' : double := binary_normalize 53 1024 eq_refl eq_refl mode_NE 8796093022208014 (-43) false.
Theorem C143_bark_order_refuted : ~ (forall f g : double, le (dbl 0) f -> le f g -> le (f_hertz2bark 53 1024 f) (f_hertz2bark 53 1024 g)).
Proof.
  intros H. specialize (H khz1 khz1' ltac:(vm_compute; reflexivity) ltac:(vm_compute; reflexivity)). revert H. assert (E : Bleb (f_hertz2bark 53 1024 khz1) (f_hertz2bark 53 1024 khz1') = false) by (vm_compute; reflexivity).
  unfold le. rewrite E. discriminate.
Qed.

(** ** Accuracy *)
(** The scales of the documentation. *)
Definition mel (f : R) : R := 112701048 / 100000 * ln (1 + f / 700).
Definition mel_inverse (m : R) : R := 700 * (exp (m / (112701048 / 100000)) - 1).
Definition bark (f : R) : R :=
  let b := 2681 / 100 * f / (1960 + f) - 53 / 100 in
  if Rlt_dec b 2 then b + 15 / 100 * (2 - b) else if Rlt_dec (201 / 10) b then b + 22 / 100 * (b - 201 / 10) else b.
(** Library functions of relative error [e]. *)
Definition log1p_within (e : R) (g : double -> double) : Prop :=
  forall x, finite x -> 0 <= B2R x -> finite (g x) /\ Rabs (B2R (g x) - ln (1 + B2R x)) <= e * ln (1 + B2R x).
Definition expm1_within (e : R) (g : double -> double) : Prop :=
  forall x, finite x -> 0 <= B2R x <= 100 -> finite (g x) /\ Rabs (B2R (g x) - (exp (B2R x) - 1)) <= e * (exp (B2R x) - 1).

Notation rnd53 := (round radix2 (FLT_exp (3 - 1024 - 53) 53) ZnearestE).
Notation w := (roundoff 53).
Notation h := (smallest 53 1024 / 2).
Lemma w_small : 0 < w <= / 9007199254740992.
Proof. unfold roundoff. change (2 ^ 53)%Z with 9007199254740992%Z. lra. Qed.
Lemma h_small : 0 < h <= bpow radix2 (-1074).
Proof.
  rewrite (smallest_tiny 53 1024). unfold tiny. pose proof (bpow_gt_0 radix2 (3 - 1024 - 53)). change (3 - 1024 - 53)%Z with (-1074)%Z in *. lra.
Qed.
(** A double operation whose exact result is moderate. *)
Lemma op_abs z : Rabs z <= bpow radix2 1020 -> Rabs (rnd53 z) < bpow radix2 1024 /\ Rabs (rnd53 z - z) <= w * Rabs z + h.
Proof.
  intros H. split.
  - apply Rle_lt_trans with (bpow radix2 1020); [|apply bpow_lt; lia]. assert (VE : Valid_exp (FLT_exp (3 - 1024 - 53) 53)) by (apply FLT_exp_valid; reflexivity).
    apply abs_round_le_generic; auto with typeclass_instances. apply (fmt_bpow 53 1024). lia.
  - pose proof (rnd_err 53 1024 z) as E. rewrite <- (roundoff_u 53), <- (smallest_tiny 53 1024) in E. exact E.
Qed.
Lemma op_rel z : bpow radix2 (-1022) <= Rabs z <= bpow radix2 1020 -> Rabs (rnd53 z) < bpow radix2 1024 /\ Rabs (rnd53 z - z) <= w * Rabs z.
Proof. intros [H1 H2]. split; [apply op_abs; exact H2|]. apply (rnd_normal 53 1024). exact H1. Qed.
Ltac num B := unfold Rabs; repeat destruct (Rcase_abs _); cbn in *; lra.
Lemma dlit_ok n d : (0 < n <= 2 ^ 53)%Z -> (0 < d <= 2 ^ 53)%Z -> finite (dlit n d) /\ Rabs (B2R (dlit n d) - IZR n / IZR d) <= w * (IZR n / IZR d) /\ 0 < IZR n / IZR d.
Proof.
  intros N D. destruct (of_Z_exact 53 1024 n) as [Fn Vn]; [lia|]. destruct (of_Z_exact 53 1024 d) as [Fd Vd]; [lia|].
  assert (N0 : 1 <= IZR n <= IZR (2 ^ 53)) by (split; apply IZR_le; lia). assert (D0 : 1 <= IZR d <= IZR (2 ^ 53)) by (split; apply IZR_le; lia).
  assert (P53 : IZR (2 ^ 53) = bpow radix2 53) by reflexivity.
  assert (Q0 : 0 < IZR n / IZR d) by (apply Rdiv_lt_0_compat; lra).
  assert (Q : bpow radix2 (-53) <= IZR n / IZR d <= bpow radix2 53).
  { assert (I : / IZR (2 ^ 53) <= / IZR d <= 1) by (split; [apply Rinv_le_contravar; lra|rewrite <- Rinv_1; apply Rinv_le_contravar; lra]). change (bpow radix2 (-53)) with (/ IZR (2 ^ 53)). rewrite <- P53. unfold Rdiv.
    assert (IP : 0 < / IZR (2 ^ 53)) by (apply Rinv_0_lt_compat; lra). set (M := IZR (2 ^ 53)) in *. set (k := / M) in *. set (t := / IZR d) in *. clearbody M k t. split.
    - apply Rle_trans with (1 * k); [lra|]. apply Rmult_le_compat; lra.
    - apply Rle_trans with (M * 1); [|lra]. apply Rmult_le_compat; lra. }
  destruct (op_rel (IZR n / IZR d)) as [O1 O2]. { rewrite Rabs_pos_eq by lra. split; [eapply Rle_trans; [|apply Q]; apply bpow_le; lia|eapply Rle_trans; [apply Q|]; apply bpow_le; lia]. }
  unfold dlit. destruct (div_cases 53 1024 (of_Z 53 1024 n) (of_Z 53 1024 d) Fn ltac:(rewrite Vd; lra)) as [[_ [V [G _]]]|[O _]]; rewrite Vn, Vd in *; [|exfalso; lra].
  rewrite (Rabs_pos_eq (IZR n / IZR d)) in O2 by lra. split; [exact G|]. split; [rewrite V; exact O2|exact Q0].
Qed.
(** Real bounds. *)
Lemma ln_1p_bounds a : 0 <= a -> a / (1 + a) <= ln (1 + a) <= a.
Proof.
  intros A. assert (up : forall b, 0 < b -> ln b <= b - 1).
  { intros b Q. pose proof (exp_ln b Q) as E. destruct (Req_dec (ln b) 0) as [Z|Z]; [rewrite Z, exp_0 in E; lra|]. pose proof (exp_ineq1 _ Z). lra. }
  split; [|pose proof (up (1 + a) ltac:(lra)); lra]. pose proof (up (/ (1 + a)) ltac:(apply Rinv_0_lt_compat; lra)) as U. rewrite ln_Rinv in U by lra.
  replace (a / (1 + a)) with (1 - / (1 + a)) by (field; lra). lra.
Qed.
Lemma ln_1p_rel a a' d : 0 <= a -> 0 <= d <= / 100 -> Rabs (a' - a) <= d * a -> Rabs (ln (1 + a') - ln (1 + a)) <= 102 / 100 * d * ln (1 + a) /\ 0 <= a'.
Proof.
  intros A D H. apply Rabs_le_inv in H. assert (A' : 0 <= a') by nra. split; [|exact A'].
  assert (up : forall b c, 0 < b -> 0 < c -> ln b - ln c <= (b - c) / c).
  { intros b c B C. replace (ln b - ln c) with (ln (b / c)) by (unfold Rdiv; rewrite ln_mult, ln_Rinv by (auto using Rinv_0_lt_compat); ring).
    assert (Q : 0 < b / c) by (apply Rdiv_lt_0_compat; lra). pose proof (exp_ln (b / c) Q) as E. replace ((b - c) / c) with (b / c - 1) by (field; lra).
    destruct (Req_dec (ln (b / c)) 0) as [Z|Z]; [rewrite Z, exp_0 in E; lra|]. pose proof (exp_ineq1 _ Z). lra. }
  pose proof (up (1 + a') (1 + a) ltac:(lra) ltac:(lra)) as U1. pose proof (up (1 + a) (1 + a') ltac:(lra) ltac:(lra)) as U2. pose proof (ln_1p_bounds a A) as [L _].
  assert (V1 : (1 + a' - (1 + a)) / (1 + a) <= d * (a / (1 + a))). { replace (d * (a / (1 + a))) with (d * a / (1 + a)) by (field; lra). apply Rmult_le_compat_r; [left; apply Rinv_0_lt_compat|]; lra. }
  assert (V2 : (1 + a - (1 + a')) / (1 + a') <= 102 / 100 * d * (a / (1 + a))).
  { apply Rle_trans with (d * a / (1 + a')); [apply Rmult_le_compat_r; [left; apply Rinv_0_lt_compat|]; lra|].
    replace (102 / 100 * d * (a / (1 + a))) with (d * a * (102 / 100 * / (1 + a))) by (field; lra). unfold Rdiv. apply Rmult_le_compat_l; [apply Rmult_le_pos; lra|].
    apply Rmult_le_reg_r with (1 + a'); [lra|]. rewrite Rinv_l by lra. apply Rmult_le_reg_r with (1 + a); [lra|]. replace (102 * / 100 * / (1 + a) * (1 + a') * (1 + a)) with (102 / 100 * (1 + a')) by (field; lra). nra. }
  assert (P : 0 <= a / (1 + a)) by (apply Rmult_le_pos; [lra|left; apply Rinv_0_lt_compat; lra]).
  assert (W1 : d * (a / (1 + a)) <= 102 / 100 * d * ln (1 + a)). { replace (102 / 100 * d * ln (1 + a)) with (d * (102 / 100 * ln (1 + a))) by ring. apply Rmult_le_compat_l; lra. }
  assert (W2 : 102 / 100 * d * (a / (1 + a)) <= 102 / 100 * d * ln (1 + a)) by (apply Rmult_le_compat_l; lra).
  apply Rabs_le. lra.
Qed.
Lemma expm1_bounds y : 0 <= y -> y <= exp y - 1 /\ y * exp y <= (1 + y) * (exp y - 1).
Proof.
  intros Y. assert (E : y <= exp y - 1). { destruct (Req_dec y 0) as [->|Z]; [rewrite exp_0; lra|]. pose proof (exp_ineq1 y Z). lra. } split; [exact E|]. lra.
Qed.
Lemma exp_up t : 0 <= t <= / 100 -> exp t - 1 <= 102 / 100 * t /\ 1 - exp (- t) <= t.
Proof.
  intros T. assert (H : 1 - t <= exp (- t)). { destruct (Req_dec t 0) as [->|N]; [rewrite Ropp_0, exp_0; lra|]. pose proof (exp_ineq1 (- t) ltac:(lra)). lra. }
  split; [|lra]. rewrite exp_Ropp in H. pose proof (exp_pos t) as P. set (v := exp t) in *. assert (I : / v * v = 1) by (apply Rinv_l; lra).
  assert (Q : (1 - t) * v <= / v * v) by (apply Rmult_le_compat_r; lra). apply Rnot_lt_le. intros C. assert (0 < (1 - t) * (v - 1 - 102 / 100 * t)) by (apply Rmult_lt_0_compat; lra). nra.
Qed.
Lemma expm1_rel y y' d : 0 <= y -> 0 <= d -> d * y <= / 100 -> Rabs (y' - y) <= d * y -> Rabs ((exp y' - 1) - (exp y - 1)) <= 102 / 100 * d * (1 + y) * (exp y - 1).
Proof.
  intros Y D S H. apply Rabs_le_inv in H. assert (DY : 0 <= d * y) by (apply Rmult_le_pos; lra).
  destruct (exp_up (d * y) ltac:(lra)) as [U1 U2]. destruct (expm1_bounds y Y) as [_ K]. pose proof (exp_pos y) as P.
  assert (E : exp y' = exp y * exp (y' - y)) by (rewrite <- exp_plus; f_equal; ring).
  assert (mono : forall a b, a <= b -> exp a <= exp b) by (intros a b [G| ->]; [left; apply exp_increasing; exact G|lra]).
  pose proof (mono (y' - y) (d * y) ltac:(lra)) as M1. pose proof (mono (- (d * y)) (y' - y) ltac:(lra)) as M2.
  assert (B : Rabs (exp (y' - y) - 1) <= 102 / 100 * (d * y)) by (apply Rabs_le; lra).
  replace (exp y' - 1 - (exp y - 1)) with (exp y * (exp (y' - y) - 1)) by (rewrite E; ring). rewrite Rabs_mult, (Rabs_pos_eq (exp y)) by lra.
  apply Rle_trans with (exp y * (102 / 100 * (d * y))); [apply Rmult_le_compat_l; lra|]. replace (exp y * (102 / 100 * (d * y))) with (102 / 100 * d * (y * exp y)) by ring.
  replace (102 / 100 * d * (1 + y) * (exp y - 1)) with (102 / 100 * d * ((1 + y) * (exp y - 1))) by ring. apply Rmult_le_compat_l; lra.
Qed.
Lemma chain z y x a b : 0 <= a -> Rabs (z - y) <= a * Rabs y -> Rabs (y - x) <= b * Rabs x -> Rabs (z - x) <= ((1 + a) * (1 + b) - 1) * Rabs x.
Proof.
  intros A H1 H2. assert (Y : Rabs y <= (1 + b) * Rabs x). { replace y with ((y - x) + x) by ring. eapply Rle_trans; [apply Rabs_triang|]. lra. }
  replace (z - x) with ((z - y) + (y - x)) by ring. eapply Rle_trans; [apply Rabs_triang|]. assert (a * Rabs y <= a * ((1 + b) * Rabs x)) by (apply Rmult_le_compat_l; lra). lra.
Qed.

Section Accuracy.
Context (prec emax : Z) {Hprec : Prec_gt_0 prec} {Hmax : Prec_lt_emax prec emax}.
Notation fl := (binary_float prec emax).
Notation rnd := (round radix2 (FLT_exp (3 - emax - prec) prec) ZnearestE).
Notation val := (@B2R prec emax).
Notation u := (roundoff prec).
Hypothesis Sizes : (24 <= prec <= 53)%Z /\ (128 <= emax <= 1024)%Z.

Lemma u_small : w <= u <= / 16777216.
Proof.
  destruct Sizes as [S _]. unfold roundoff. split.
  - apply Rinv_le_contravar; [apply IZR_lt; apply Z.pow_pos_nonneg; lia|]. apply IZR_le, Z.pow_le_mono_r; lia.
  - change 16777216 with (IZR (2 ^ 24)). apply Rinv_le_contravar; [apply IZR_lt; lia|]. apply IZR_le, Z.pow_le_mono_r; lia.
Qed.
(** Within [k] units of the format, relatively. *)
Definition near (k z x : R) : Prop := Rabs (z - x) <= k * u * Rabs x.
Lemma near_trans a b z y x : near a z y -> near b y x -> 0 <= a <= 100 -> 0 <= b <= 100 -> near (a + b + / 1000) z x.
Proof.
  intros H1 H2 A B. pose proof u_small as U. pose proof w_small as W. unfold near in *. pose proof (Rabs_pos x) as X.
  assert (AU : 0 <= a * u) by (apply Rmult_le_pos; lra). eapply Rle_trans; [apply (chain z y x (a * u) (b * u) AU H1 H2)|]. apply Rmult_le_compat_r; [exact X|].
  assert (Q : a * u * (b * u) <= / 1000 * u).
  { replace (a * u * (b * u)) with (a * b * u * u) by ring. apply Rmult_le_compat_r; [lra|]. apply Rle_trans with (100 * 100 * / 16777216); [|lra]. apply Rmult_le_compat; try lra; [apply Rmult_le_pos; lra|]. apply Rmult_le_compat; lra. }
  lra.
Qed.
Lemma near_mul a b z y x t : near a z y -> near b t x -> 0 <= a <= 100 -> 0 <= b <= 100 -> near (a + b + / 1000) (z * t) (y * x).
Proof.
  intros H1 H2 A B. apply (near_trans a b _ (y * t)); auto.
  - unfold near in *. rewrite <- Rmult_minus_distr_r, !Rabs_mult. rewrite <- Rmult_assoc. apply Rmult_le_compat_r; [apply Rabs_pos|exact H1].
  - unfold near in *. rewrite <- Rmult_minus_distr_l, !Rabs_mult. replace (b * u * (Rabs y * Rabs x)) with (Rabs y * (b * u * Rabs x)) by ring. apply Rmult_le_compat_l; [apply Rabs_pos|exact H2].
Qed.
Lemma near_weaken a b z x : a <= b -> near a z x -> near b z x.
Proof. intros H N. pose proof u_small as U. pose proof w_small as W. unfold near in *. eapply Rle_trans; [exact N|]. apply Rmult_le_compat_r; [apply Rabs_pos|]. apply Rmult_le_compat_r; lra. Qed.
Lemma near_pos k z x : near k z x -> 0 <= x -> 0 <= k <= 100 -> 999 / 1000 * x <= z <= 1001 / 1000 * x.
Proof.
  intros N X K. pose proof u_small as U. pose proof w_small as W. unfold near in N. rewrite (Rabs_pos_eq x) in N by exact X. apply Rabs_le_inv in N.
  assert (k * u <= 100 * / 16777216) by (apply Rmult_le_compat; lra). assert (k * u * x <= / 1000 * x) by (apply Rmult_le_compat_r; lra). lra.
Qed.
(** Double operations and the conversion to T, at zero or at moderate normal numbers. *)
Definition moderate (z : R) : Prop := z = 0 \/ bpow radix2 (-1022) <= Rabs z <= bpow radix2 1020.
Lemma round_near z : moderate z -> Rabs (rnd53 z) < bpow radix2 1024 /\ near 1 (rnd53 z) z.
Proof.
  intros [->|M].
  - rewrite (rnd_0 53 1024), Rabs_R0. split; [apply bpow_gt_0|]. unfold near. rewrite Rminus_0_r, Rabs_R0. lra.
  - destruct (op_rel z M) as [A B]. split; [exact A|]. unfold near. eapply Rle_trans; [exact B|]. pose proof u_small. apply Rmult_le_compat_r; [apply Rabs_pos|lra].
Qed.
Lemma mul_near x y : finite x -> finite y -> moderate (B2R x * B2R y) -> finite (fmul 53 1024 x y) /\ near 1 (B2R (fmul 53 1024 x y)) (B2R x * B2R y).
Proof.
  intros Fx Fy M. destruct (round_near _ M) as [A B]. destruct (mul_cases 53 1024 x y Fx Fy) as [[_ [V G]]|[O _]]; [|exfalso; lra]. split; [exact G|]. rewrite V. exact B.
Qed.
Lemma div_near x y : finite x -> B2R y <> 0 -> moderate (B2R x / B2R y) -> finite (fdiv 53 1024 x y) /\ near 1 (B2R (fdiv 53 1024 x y)) (B2R x / B2R y).
Proof.
  intros Fx Fy M. destruct (round_near _ M) as [A B]. destruct (div_cases 53 1024 x y Fx Fy) as [[_ [V [G _]]]|[O _]]; [|exfalso; lra]. split; [exact G|]. rewrite V. exact B.
Qed.
Lemma narrow_near (z : double) : finite z -> B2R z = 0 \/ bpow radix2 (2 - emax) <= Rabs (B2R z) <= bpow radix2 (emax - 1) -> finite (fconv prec emax z) /\ near 1 (val (fconv prec emax z)) (B2R z).
Proof.
  intros F [Z|[L H]].
  - destruct (conv_value prec emax z F) as [G V]; [rewrite Z, (rnd_0 prec emax), Rabs_R0; apply bpow_gt_0|]. split; [exact G|]. rewrite V, Z, (rnd_0 prec emax). unfold near. rewrite Rminus_0_r, Rabs_R0. lra.
  - assert (B : Rabs (rnd (B2R z)) < bpow radix2 emax).
    { apply Rle_lt_trans with (bpow radix2 (emax - 1)); [|apply bpow_lt; lia]. assert (VE : Valid_exp (FLT_exp (3 - emax - prec) prec)) by (apply FLT_exp_valid; exact Hprec). apply abs_round_le_generic; auto with typeclass_instances. apply (fmt_bpow prec emax). destruct Sizes. lia. }
    destruct (conv_value prec emax z F B) as [G V]. split; [exact G|]. rewrite V. unfold near. rewrite Rmult_1_l. apply (rnd_normal prec emax). exact L.
Qed.
Lemma widen_val (x : fl) : finite x -> finite (fconv 53 1024 x) /\ B2R (fconv 53 1024 x) = val x.
Proof. apply (widen_value prec emax 53 1024). lia. Qed.
Lemma dlit_near n d : (0 < n <= 2 ^ 53)%Z -> (0 < d <= 2 ^ 53)%Z -> finite (dlit n d) /\ near 1 (B2R (dlit n d)) (IZR n / IZR d) /\ 999 / 1000 * (IZR n / IZR d) <= B2R (dlit n d) <= 1001 / 1000 * (IZR n / IZR d).
Proof.
  intros N D. destruct (dlit_ok n d N D) as [F [E P]]. assert (K : near 1 (B2R (dlit n d)) (IZR n / IZR d)).
  { unfold near. rewrite (Rabs_pos_eq (IZR n / IZR d)) by lra. eapply Rle_trans; [exact E|]. pose proof u_small. apply Rmult_le_compat_r; lra. }
  split; [exact F|]. split; [exact K|]. apply (near_pos 1); [exact K|lra|lra].
Qed.
Lemma int_val n : (Z.abs n <= 2 ^ 53)%Z -> finite (of_Z 53 1024 n) /\ B2R (of_Z 53 1024 n) = IZR n.
Proof. apply (of_Z_exact 53 1024). Qed.
Lemma tiny_steps k : (12 <= k <= 40)%Z -> bpow radix2 (-1022) <= bpow radix2 (k - emax) / 1024 /\ 1024 * bpow radix2 (2 - emax) <= bpow radix2 (k + 2 - emax) /\ bpow radix2 (k - emax) <= / 1024.
Proof.
  intros K. destruct Sizes as [_ S]. replace (bpow radix2 (k - emax) / 1024) with (bpow radix2 (k - emax + -10)) by (rewrite bpow_plus; reflexivity). split; [apply bpow_le; lia|]. split.
  - replace (1024 * bpow radix2 (2 - emax)) with (bpow radix2 (10 + (2 - emax))) by (rewrite bpow_plus; reflexivity). apply bpow_le. lia.
  - change (/ 1024) with (bpow radix2 (-10)). apply bpow_le. lia.
Qed.

Context (dlog1p dexpm1 : double -> double) (k1 k2 : R).
Hypothesis Hlog : log1p_within (k1 * u) dlog1p.
Hypothesis Hexp : expm1_within (k2 * u) dexpm1.
Hypothesis Hk : 0 <= k1 <= 4 /\ 0 <= k2 <= 4.

Lemma big_1020 : 1000000000 <= bpow radix2 100 /\ bpow radix2 100 <= bpow radix2 1020 /\ bpow radix2 100 <= bpow radix2 (emax - 1).
Proof. destruct Sizes. split; [apply Rle_trans with (bpow radix2 40); [cbn; lra|apply bpow_le; lia]|]. split; apply bpow_le; lia. Qed.
Lemma mel_bounds f : 0 <= f < bpow radix2 1024 -> 8 / 10 * Rmin f 700 <= mel f <= 2000000 /\ (f = 0 -> mel f = 0).
Proof.
  intros [F0 F1]. unfold mel. pose proof (ln_1p_bounds (f / 700) ltac:(lra)) as [L1 L2]. split; [split|].
  - assert (Q : / 1400 * Rmin f 700 <= f / 700 / (1 + f / 700)).
    { apply Rmult_le_reg_r with (1 + f / 700); [lra|]. replace (f / 700 / (1 + f / 700) * (1 + f / 700)) with (f / 700) by (field; lra). unfold Rmin. destruct (Rle_dec f 700); nra. }
    assert (0 <= Rmin f 700) by (unfold Rmin; destruct (Rle_dec f 700); lra). lra.
  - assert (L : ln (1 + f / 700) <= 1024 * 1).
    { apply Rle_trans with (ln (bpow radix2 1024)).
      - assert (A : 1 + f / 700 <= bpow radix2 1024). { assert (2 <= bpow radix2 1024) by (change 2 with (bpow radix2 1); apply bpow_le; lia). lra. }
        destruct A as [A|A]; [left; apply ln_increasing; lra|rewrite A; lra].
      - rewrite bpow_powerRZ. change (IZR radix2) with 2. rewrite powerRZ_Rpower by lra. unfold Rpower. rewrite ln_exp. apply Rmult_le_compat_l; [lra|].
        rewrite <- (ln_exp 1). left. apply ln_increasing; [lra|]. pose proof (exp_ineq1 1 ltac:(lra)). lra. }
    lra.
  - intros ->. replace (1 + 0 / 700) with 1 by field. rewrite ln_1. ring.
Qed.
(** Hertz to mel: the error of the logarithm and five units, relatively, at zero and over the whole normal range. *)
Lemma mel_near f : finite f -> val f = 0 \/ bpow radix2 (16 - emax) <= val f -> finite (f_hertz2mel prec emax dlog1p f) /\ near (k1 + 5) (val (f_hertz2mel prec emax dlog1p f)) (mel (val f)).
Proof.
  intros F R. destruct Sizes as [_ SE]. pose proof u_small as U. pose proof w_small as W. pose proof big_1020 as BIG. pose proof (tiny_steps 16 ltac:(lia)) as [T1 [T2 T3]]. pose proof (bpow_gt_0 radix2 (16 - emax)) as T0. set (t16 := bpow radix2 (16 - emax)) in *.
  assert (F0 : 0 <= val f) by (destruct R; lra).
  assert (F1 : val f < bpow radix2 1024). { pose proof (val_bound prec emax f) as B. apply Rabs_def2 in B. apply Rlt_le_trans with (bpow radix2 emax); [lra|apply bpow_le; lia]. }
  destruct (widen_val f F) as [Fw Vw]. destruct (int_val 700 ltac:(lia)) as [F7 V7].
  assert (M1 : moderate (B2R (fconv 53 1024 f) / B2R (of_Z 53 1024 700))).
  { rewrite Vw, V7. destruct R as [->|R]; [left; field|right]. rewrite Rabs_pos_eq by lra. split; [lra|]. change 1024%Z with (4 + 1020)%Z in F1. rewrite bpow_plus in F1. change (bpow radix2 4) with 16 in F1. pose proof (bpow_gt_0 radix2 1020). lra. }
  destruct (div_near _ _ Fw ltac:(rewrite V7; lra) M1) as [Fa Na]. rewrite Vw, V7 in Na. set (a := val f / 700) in *. assert (A0 : 0 <= a) by (unfold a; lra).
  set (x := fdiv 53 1024 (fconv 53 1024 f) (of_Z 53 1024 700)) in *.
  assert (Da : Rabs (B2R x - a) <= u * a) by (unfold near in Na; rewrite (Rabs_pos_eq a) in Na by exact A0; lra).
  destruct (ln_1p_rel a (B2R x) u A0 ltac:(lra) Da) as [Dl X0]. destruct (Hlog x Fa X0) as [Fl El].
  assert (L0 : 0 <= ln (1 + a)). { pose proof (ln_1p_bounds a A0) as [Q _]. eapply Rle_trans; [|exact Q]. apply Rmult_le_pos; [lra|left; apply Rinv_0_lt_compat; lra]. }
  assert (L0' : 0 <= ln (1 + B2R x)). { pose proof (ln_1p_bounds (B2R x) X0) as [Q _]. eapply Rle_trans; [|exact Q]. apply Rmult_le_pos; [lra|left; apply Rinv_0_lt_compat; lra]. }
  assert (N1 : near k1 (B2R (dlog1p x)) (ln (1 + B2R x))) by (unfold near; rewrite (Rabs_pos_eq (ln (1 + B2R x))) by exact L0'; exact El).
  assert (N2 : near (102 / 100) (ln (1 + B2R x)) (ln (1 + a))) by (unfold near; rewrite (Rabs_pos_eq (ln (1 + a))) by exact L0; exact Dl).
  pose proof (near_trans _ _ _ _ _ N1 N2 ltac:(lra) ltac:(lra)) as N3.
  destruct (dlit_near 112701048 100000 ltac:(lia) ltac:(lia)) as [Fc [Nc Bc]].
  pose proof (near_mul _ _ _ _ _ _ Nc N3 ltac:(lra) ltac:(lra)) as N4. change (112701048 / 100000 * ln (1 + a)) with (mel (val f)) in N4.
  destruct (mel_bounds (val f) ltac:(lra)) as [MB MZ]. assert (MP : 0 <= mel (val f)) by (unfold Rmin in MB; destruct (Rle_dec (val f) 700); lra). set (ml := mel (val f)) in *.
  pose proof (near_pos _ _ _ N4 MP ltac:(lra)) as B4.
  assert (LOW : val f = 0 \/ 7 / 10 * t16 <= ml * (999 / 1000)) by (destruct R as [R|R]; [left; exact R|right; unfold Rmin in MB; destruct (Rle_dec (val f) 700); lra]).
  assert (M2 : moderate (B2R (dlit 112701048 100000) * B2R (dlog1p x))).
  { destruct LOW as [Z|LOW]; [left; rewrite (MZ Z) in B4; lra|right]. rewrite Rabs_pos_eq by lra. split; lra. }
  destruct (mul_near _ _ Fc Fl M2) as [Fp Np]. pose proof (near_trans _ _ _ _ _ Np N4 ltac:(lra) ltac:(lra)) as N5.
  pose proof (near_pos _ _ _ N5 MP ltac:(lra)) as B5.
  destruct (narrow_near _ Fp) as [Fr Nr].
  { destruct LOW as [Z|LOW]; [left; rewrite (MZ Z) in B5; lra|right]. rewrite Rabs_pos_eq by lra. split; [|lra].
    assert (T4 : bpow radix2 (16 + 2 - emax) = 4 * t16) by (replace (16 + 2 - emax)%Z with (2 + (16 - emax))%Z by lia; rewrite bpow_plus; reflexivity). rewrite T4 in T2. lra. }
  pose proof (near_trans _ _ _ _ _ Nr N5 ltac:(lra) ltac:(lra)) as N6. split; [exact Fr|]. eapply near_weaken; [|exact N6]. lra.
Qed.
Theorem C143_mel f : finite f -> val f = 0 \/ bpow radix2 (16 - emax) <= val f ->
  finite (f_hertz2mel prec emax dlog1p f) /\ Rabs (val (f_hertz2mel prec emax dlog1p f) - mel (val f)) <= (k1 + 5) * u * mel (val f).
Proof.
  intros F R. destruct (mel_near f F R) as [G N]. split; [exact G|]. unfold near in N. rewrite (Rabs_pos_eq (mel (val f))) in N; [exact N|].
  pose proof (bpow_gt_0 radix2 (16 - emax)) as T0. destruct Sizes as [_ SE].
  assert (F1 : val f < bpow radix2 1024). { pose proof (val_bound prec emax f) as B. apply Rabs_def2 in B. apply Rlt_le_trans with (bpow radix2 emax); [lra|apply bpow_le; lia]. }
  destruct (mel_bounds (val f)) as [MB _]; [destruct R; lra|]. unfold Rmin in MB. destruct (Rle_dec (val f) 700), R; lra.
Qed.
Lemma near_div a z y x : near a z y -> 0 <= a <= 10 -> 0 < y -> near (1001 / 1000 * a) (x / z) (x / y).
Proof.
  intros N A Y. pose proof (near_pos _ _ _ N ltac:(lra) ltac:(lra)) as B. unfold near in *. rewrite (Rabs_pos_eq y) in N by lra. pose proof u_small as U. pose proof w_small as W.
  replace (x / z - x / y) with (x / y * ((y - z) / z)) by (field; lra). rewrite Rabs_mult, (Rmult_comm (1001 / 1000 * a * u)). apply Rmult_le_compat_l; [apply Rabs_pos|].
  assert (Z : 0 < / z) by (apply Rinv_0_lt_compat; lra). unfold Rdiv. rewrite Rabs_mult, (Rabs_pos_eq (/ z)) by lra. rewrite Rabs_minus_sym in N.
  apply Rle_trans with (a * u * y * / z); [apply Rmult_le_compat_r; lra|]. replace (1001 * / 1000 * a * u) with (a * u * (1001 / 1000)) by field. rewrite Rmult_assoc. apply Rmult_le_compat_l; [apply Rmult_le_pos; lra|].
  apply Rmult_le_reg_r with z; [lra|]. rewrite Rmult_assoc, Rinv_l, Rmult_1_r by lra.
  assert (N' : a * u * y <= / 1000 / 2 * y). { apply Rmult_le_compat_r; [lra|]. apply Rle_trans with (10 * / 16777216); [apply Rmult_le_compat; lra|lra]. } apply Rabs_le_inv in N. lra.
Qed.
Lemma exp_7 : exp 7 <= 2187.
Proof.
  replace 7 with (INR 7 * 1) by (cbn; lra). assert (P : forall n, exp (INR n * 1) <= 3 ^ n).
  { intros n. induction n as [|n IH]; [rewrite Rmult_0_l, exp_0; cbn; lra|]. rewrite S_INR. replace ((INR n + 1) * 1) with (INR n * 1 + 1) by ring. rewrite exp_plus. cbn [pow]. pose proof exp_le_3. pose proof (exp_pos (INR n * 1)). pose proof (exp_pos 1). nra. }
  eapply Rle_trans; [apply P|]. cbn. lra.
Qed.
Lemma inverse_bounds m : 0 <= m <= 7000 -> 6 / 10 * m <= mel_inverse m <= 2000000 /\ (m = 0 -> mel_inverse m = 0).
Proof.
  intros M. unfold mel_inverse. set (y := m / (112701048 / 100000)). assert (Y : 0 <= y <= 6.22) by (unfold y; lra). destruct (expm1_bounds y ltac:(lra)) as [E _]. split; [split|].
  - unfold y in *. lra.
  - assert (exp y <= exp 7) by (left; apply exp_increasing; lra). pose proof exp_7. lra.
  - intros ->. unfold y. replace (0 / (112701048 / 100000)) with 0 by field. rewrite exp_0. ring.
Qed.
(** Mel to hertz: the exponent is amplified by at most 7.22, the level of 7000 mel. *)
Lemma inverse_near m : finite m -> val m = 0 \/ bpow radix2 (16 - emax) <= val m <= 7000 -> finite (f_mel2hertz prec emax dexpm1 m) /\ near (k2 + 18) (val (f_mel2hertz prec emax dexpm1 m)) (mel_inverse (val m)).
Proof.
  intros F R. destruct Sizes as [_ SE]. pose proof u_small as U. pose proof w_small as W. pose proof big_1020 as BIG. pose proof (tiny_steps 16 ltac:(lia)) as [T1 [T2 T3]]. pose proof (bpow_gt_0 radix2 (16 - emax)) as T0.
  assert (T4 : bpow radix2 (16 + 2 - emax) = 4 * bpow radix2 (16 - emax)) by (replace (16 + 2 - emax)%Z with (2 + (16 - emax))%Z by lia; rewrite bpow_plus; reflexivity). rewrite T4 in T2. clear T4.
  pose proof (tiny_steps 12 ltac:(lia)) as [T5 _]. assert (T6 : bpow radix2 (16 - emax) = 16 * bpow radix2 (12 - emax)) by (replace (16 - emax)%Z with (4 + (12 - emax))%Z by lia; rewrite bpow_plus; reflexivity).
  set (t16 := bpow radix2 (16 - emax)) in *. set (t12 := bpow radix2 (12 - emax)) in *.
  assert (M0 : 0 <= val m <= 7000) by (destruct R; lra). destruct (widen_val m F) as [Fw Vw]. destruct (int_val 700 ltac:(lia)) as [F7 V7].
  destruct (dlit_near 112701048 100000 ltac:(lia) ltac:(lia)) as [Fc [Nc Bc]]. set (c := B2R (dlit 112701048 100000)) in *.
  pose proof (near_div 1 c (112701048 / 100000) (val m) Nc ltac:(lra) ltac:(lra)) as Nq. set (y := val m / (112701048 / 100000)) in *. assert (Y : 0 <= y <= 6.22) by (unfold y; lra).
  pose proof (near_pos _ _ _ Nq ltac:(lra) ltac:(lra)) as Bq.
  assert (M1 : moderate (B2R (fconv 53 1024 m) / B2R (dlit 112701048 100000))).
  { fold c. rewrite Vw. destruct R as [Z|R]; [left; rewrite Z; field; lra|right]. rewrite Rabs_pos_eq by lra. unfold y in *. split; lra. }
  destruct (div_near (fconv 53 1024 m) (dlit 112701048 100000) Fw ltac:(fold c; lra) M1) as [Fx Nx]. fold c in Nx. rewrite Vw in Nx. set (x := fdiv 53 1024 (fconv 53 1024 m) (dlit 112701048 100000)) in *.
  pose proof (near_trans _ _ _ _ _ Nx Nq ltac:(lra) ltac:(lra)) as N1. pose proof (near_pos _ _ _ N1 ltac:(lra) ltac:(lra)) as B1.
  assert (D1 : Rabs (B2R x - y) <= 202 / 100 * u * y). { apply (near_weaken _ (202 / 100)) in N1; [|lra]. unfold near in N1. rewrite (Rabs_pos_eq y) in N1 by lra. exact N1. }
  assert (UY : 202 / 100 * u * y <= / 100). { apply Rle_trans with (202 / 100 * / 16777216 * 7); [|lra]. apply Rmult_le_compat; lra. }
  pose proof (expm1_rel y (B2R x) (202 / 100 * u) ltac:(lra) ltac:(lra) UY D1) as D2. destruct (expm1_bounds y ltac:(lra)) as [EB _].
  assert (N2 : near 15 (exp (B2R x) - 1) (exp y - 1)).
  { unfold near. rewrite (Rabs_pos_eq (exp y - 1)) by lra. eapply Rle_trans; [exact D2|]. apply Rmult_le_compat_r; [lra|].
    replace (102 / 100 * (202 / 100 * u) * (1 + y)) with (102 / 100 * (202 / 100) * (1 + y) * u) by ring. apply Rmult_le_compat_r; lra. }
  destruct (Hexp x Fx ltac:(lra)) as [Fe Ee]. assert (X1 : 0 <= exp (B2R x) - 1) by (destruct (expm1_bounds (B2R x) ltac:(lra)); lra).
  assert (N3 : near k2 (B2R (dexpm1 x)) (exp (B2R x) - 1)) by (unfold near; rewrite (Rabs_pos_eq (exp (B2R x) - 1)) by exact X1; exact Ee).
  pose proof (near_trans _ _ _ _ _ N3 N2 ltac:(lra) ltac:(lra)) as N4.
  destruct (inverse_bounds (val m) M0) as [IB IZ]. set (iv := mel_inverse (val m)) in *.
  assert (N5 : near (k2 + 15 + / 1000) (700 * B2R (dexpm1 x)) iv).
  { unfold iv, mel_inverse. fold y. unfold near in *. rewrite <- Rmult_minus_distr_l, !Rabs_mult. replace ((k2 + 15 + / 1000) * u * (Rabs 700 * Rabs (exp y - 1))) with (Rabs 700 * ((k2 + 15 + / 1000) * u * Rabs (exp y - 1))) by ring. apply Rmult_le_compat_l; [apply Rabs_pos|exact N4]. }
  pose proof (near_pos _ _ _ N5 ltac:(lra) ltac:(lra)) as B5.
  assert (LOW : val m = 0 \/ 5 / 10 * t16 <= iv * (999 / 1000)) by (destruct R as [R|R]; [left; exact R|right; lra]).
  assert (M2 : moderate (B2R (of_Z 53 1024 700) * B2R (dexpm1 x))).
  { rewrite V7. destruct LOW as [Z|LOW]; [left; rewrite (IZ Z) in B5; lra|right]. rewrite Rabs_pos_eq by lra. split; lra. }
  destruct (mul_near _ _ F7 Fe M2) as [Fp Np]. rewrite V7 in Np. pose proof (near_trans _ _ _ _ _ Np N5 ltac:(lra) ltac:(lra)) as N6.
  pose proof (near_pos _ _ _ N6 ltac:(lra) ltac:(lra)) as B6.
  destruct (narrow_near _ Fp) as [Fr Nr].
  { destruct LOW as [Z|LOW]; [left; rewrite (IZ Z) in B6; lra|right]. rewrite Rabs_pos_eq by lra. split; lra. }
  pose proof (near_trans _ _ _ _ _ Nr N6 ltac:(lra) ltac:(lra)) as N7. split; [exact Fr|]. eapply near_weaken; [|exact N7]. lra.
Qed.
Theorem C143_mel_inverse m : finite m -> val m = 0 \/ bpow radix2 (16 - emax) <= val m <= 7000 ->
  finite (f_mel2hertz prec emax dexpm1 m) /\ Rabs (val (f_mel2hertz prec emax dexpm1 m) - mel_inverse (val m)) <= (k2 + 18) * u * mel_inverse (val m).
Proof.
  intros F R. destruct (inverse_near m F R) as [G N]. split; [exact G|]. unfold near in N. rewrite (Rabs_pos_eq (mel_inverse (val m))) in N; [exact N|].
  pose proof (bpow_gt_0 radix2 (16 - emax)) as T0. destruct (inverse_bounds (val m)) as [MB _]; destruct R; lra.
Qed.
Lemma ln_192 f : 0 <= f <= 192000 -> ln (1 + f / 700) <= 6.
Proof.
  intros F. assert (E : 276 <= exp 6).
  { replace 6 with (INR 48 * / 8) by (cbn; lra). assert (P : forall n, (9 / 8) ^ n <= exp (INR n * / 8)).
    { intros n. induction n as [|n IH]; [rewrite Rmult_0_l, exp_0; cbn; lra|]. rewrite S_INR. replace ((INR n + 1) * / 8) with (INR n * / 8 + / 8) by ring. rewrite exp_plus. cbn [pow]. pose proof (exp_ineq1 (/ 8) ltac:(lra)). pose proof (exp_pos (INR n * / 8)). assert (0 < (9 / 8) ^ n) by (apply pow_lt; lra). nra. }
    eapply Rle_trans; [|apply P]. cbn. lra. }
  rewrite <- (ln_exp 6). assert (Q : 1 + f / 700 < exp 6) by lra. left. apply ln_increasing; lra.
Qed.
(** Frequencies up to 192 kHz survive a trip to mel and back. *)
Theorem C143_mel_roundtrip f : finite f -> val f = 0 \/ bpow radix2 (20 - emax) <= val f <= 192000 ->
  let g := f_mel2hertz prec emax dexpm1 (f_hertz2mel prec emax dlog1p f) in finite g /\ Rabs (val g - val f) <= (8 * k1 + k2 + 60) * u * val f.
Proof.
  intros F R. pose proof u_small as U. pose proof w_small as W. pose proof (bpow_gt_0 radix2 (16 - emax)) as T0. assert (T6 : bpow radix2 (20 - emax) = 16 * bpow radix2 (16 - emax)) by (replace (20 - emax)%Z with (4 + (16 - emax))%Z by lia; rewrite bpow_plus; reflexivity). rewrite T6 in R.
  pose proof (tiny_steps 16 ltac:(lia)) as [_ [_ T3]].
  destruct (mel_near f F ltac:(destruct R; lra)) as [Fm Nm]. set (m := f_hertz2mel prec emax dlog1p f) in *. set (t16 := bpow radix2 (16 - emax)) in *.
  assert (F0 : 0 <= val f <= 192000) by (destruct R; lra).
  destruct (mel_bounds (val f)) as [MB MZ]. { split; [lra|]. apply Rle_lt_trans with (bpow radix2 20); [cbn; lra|apply bpow_lt; lia]. }
  pose proof (ln_192 (val f) F0) as L6. assert (MU : mel (val f) <= 112701048 / 100000 * 6) by (unfold mel; lra).
  assert (ML : val f = 0 \/ 16 * t16 * (8 / 10) <= mel (val f)) by (destruct R as [R|R]; [left; exact R|right; unfold Rmin in MB; destruct (Rle_dec (val f) 700); lra]).
  assert (MP : 0 <= mel (val f)) by (destruct ML as [Z|]; [rewrite (MZ Z)|]; lra).
  pose proof (near_pos _ _ _ Nm MP ltac:(lra)) as Bm.
  assert (Rm : val m = 0 \/ t16 <= val m <= 7000) by (destruct ML as [Z|ML]; [left; rewrite (MZ Z) in Bm; lra|right; lra]).
  destruct (inverse_near m Fm Rm) as [Fg Ng]. cbv zeta. set (g := f_mel2hertz prec emax dexpm1 m) in *. split; [exact Fg|].
  set (L := ln (1 + val f / 700)) in *. assert (L0 : 0 <= L) by (unfold mel in MP; fold L in MP; lra).
  assert (IF : mel_inverse (mel (val f)) = val f).
  { unfold mel_inverse, mel. fold L. replace (112701048 / 100000 * L / (112701048 / 100000)) with L by field. unfold L. rewrite exp_ln by lra. field. }
  assert (EL : exp L - 1 = val f / 700) by (unfold L; rewrite exp_ln; lra).
  assert (DY : Rabs (val m / (112701048 / 100000) - L) <= (k1 + 5) * u * L).
  { unfold near in Nm. rewrite (Rabs_pos_eq (mel (val f))) in Nm by exact MP. unfold mel in Nm. fold L in Nm. replace (val m / (112701048 / 100000) - L) with ((val m - 112701048 / 100000 * L) / (112701048 / 100000)) by field.
    unfold Rdiv at 1. rewrite Rabs_mult, (Rabs_pos_eq (/ (112701048 / 100000))) by lra. lra. }
  assert (UB : (k1 + 5) * u * L <= / 100). { apply Rle_trans with (9 * / 16777216 * 6); [|lra]. apply Rmult_le_compat; try lra; [apply Rmult_le_pos; lra|]. apply Rmult_le_compat; lra. }
  pose proof (expm1_rel L (val m / (112701048 / 100000)) ((k1 + 5) * u) L0 ltac:(apply Rmult_le_pos; lra) UB DY) as DE.
  assert (NI : near (715 / 100 * (k1 + 5)) (mel_inverse (val m)) (val f)).
  { unfold near, mel_inverse. rewrite (Rabs_pos_eq (val f)) by lra. rewrite EL in DE. replace (700 * (exp (val m / (112701048 / 100000)) - 1) - val f) with (700 * (exp (val m / (112701048 / 100000)) - 1 - val f / 700)) by field.
    rewrite Rabs_mult, (Rabs_pos_eq 700) by lra. apply Rle_trans with (700 * (102 / 100 * ((k1 + 5) * u) * (1 + L) * (val f / 700))); [apply Rmult_le_compat_l; lra|].
    replace (700 * (102 / 100 * ((k1 + 5) * u) * (1 + L) * (val f / 700))) with (102 / 100 * (1 + L) * ((k1 + 5) * u * val f)) by field.
    replace (715 / 100 * (k1 + 5) * u * val f) with (715 / 100 * ((k1 + 5) * u * val f)) by ring. apply Rmult_le_compat_r; [apply Rmult_le_pos; [apply Rmult_le_pos|]|]; lra. }
  pose proof (near_trans _ _ _ _ _ Ng NI ltac:(lra) ltac:(lra)) as N. apply (near_weaken _ (8 * k1 + k2 + 60)) in N; [|lra]. unfold near in N. rewrite (Rabs_pos_eq (val f)) in N by lra. exact N.
Qed.

(** ** The Bark scale *)
Lemma opu z B : Rabs z <= B -> 0 <= B <= 1000000 -> Rabs (rnd53 z) < bpow radix2 1024 /\ Rabs (rnd53 z - z) <= (B + / 1000) * u.
Proof.
  intros H HB. destruct (op_abs z) as [A E]. { eapply Rle_trans; [exact H|]. apply Rle_trans with (bpow radix2 20); [cbn; lra|apply bpow_le; lia]. }
  split; [exact A|]. pose proof u_small as U. pose proof w_small as W. pose proof h_small as Hh. destruct Sizes as [S1 _].
  assert (HU : h <= / 1000 * u).
  { apply Rle_trans with (bpow radix2 (-10) * bpow radix2 (- prec)).
    - rewrite <- bpow_plus. eapply Rle_trans; [apply Hh|]. apply bpow_le. lia.
    - assert (UP : u = bpow radix2 (- prec)) by apply (roundoff_u prec). rewrite <- UP. apply Rmult_le_compat_r; [lra|]. change (bpow radix2 (-10)) with (/ 1024). lra. }
  eapply Rle_trans; [exact E|]. assert (w * Rabs z <= u * B) by (apply Rmult_le_compat; try lra; apply Rabs_pos). lra.
Qed.
Lemma add_u x y B : finite x -> finite y -> Rabs (B2R x + B2R y) <= B -> 0 <= B <= 1000000 -> finite (fadd 53 1024 x y) /\ Rabs (B2R (fadd 53 1024 x y) - (B2R x + B2R y)) <= (B + / 1000) * u.
Proof.
  intros Fx Fy H HB. destruct (opu _ B H HB) as [A E]. destruct (add_cases 53 1024 x y Fx Fy) as [[_ [V G]]|[O _]]; [|exfalso; lra]. split; [exact G|]. rewrite V. exact E.
Qed.
Lemma sub_u x y B : finite x -> finite y -> Rabs (B2R x - B2R y) <= B -> 0 <= B <= 1000000 -> finite (fsub 53 1024 x y) /\ Rabs (B2R (fsub 53 1024 x y) - (B2R x - B2R y)) <= (B + / 1000) * u.
Proof.
  intros Fx Fy H HB. destruct (opu _ B H HB) as [A E]. destruct (sub_cases 53 1024 x y Fx Fy) as [[_ [V G]]|[O _]]; [|exfalso; lra]. split; [exact G|]. rewrite V. exact E.
Qed.
Lemma mul_u x y B : finite x -> finite y -> Rabs (B2R x * B2R y) <= B -> 0 <= B <= 1000000 -> finite (fmul 53 1024 x y) /\ Rabs (B2R (fmul 53 1024 x y) - (B2R x * B2R y)) <= (B + / 1000) * u.
Proof.
  intros Fx Fy H HB. destruct (opu _ B H HB) as [A E]. destruct (mul_cases 53 1024 x y Fx Fy) as [[_ [V G]]|[O _]]; [|exfalso; lra]. split; [exact G|]. rewrite V. exact E.
Qed.
Definition ramp (b : R) : R := if Rlt_dec b 2 then b + 15 / 100 * (2 - b) else if Rlt_dec (201 / 10) b then b + 22 / 100 * (b - 201 / 10) else b.
Lemma ramp_lip x y d : Rabs (x - y) <= d -> Rabs (ramp x - ramp y) <= 122 / 100 * d.
Proof. intros H. apply Rabs_le_inv in H. apply Rabs_le. unfold ramp. destruct (Rlt_dec x 2), (Rlt_dec y 2), (Rlt_dec (201 / 10) x), (Rlt_dec (201 / 10) y); split; lra. Qed.
Lemma ramp_le x y : x <= y -> ramp x <= ramp y.
Proof. intros H. unfold ramp. destruct (Rlt_dec x 2), (Rlt_dec y 2), (Rlt_dec (201 / 10) x), (Rlt_dec (201 / 10) y); lra. Qed.
Definition fraction (f : R) : R := 2681 / 100 * f / (1960 + f).
Lemma fraction_bounds f : 0 <= f -> 0 <= fraction f < 2681 / 100.
Proof.
  intros F. unfold fraction. split; [apply Rmult_le_pos; [lra|left; apply Rinv_0_lt_compat; lra]|]. apply Rmult_lt_reg_r with (1960 + f); [lra|]. replace (2681 / 100 * f / (1960 + f) * (1960 + f)) with (2681 / 100 * f) by (field; lra). lra.
Qed.
Lemma fraction_le f g : 0 <= f <= g -> fraction f <= fraction g.
Proof.
  intros F. unfold fraction. apply Rmult_le_reg_r with (1960 + f); [lra|]. replace (2681 / 100 * f / (1960 + f) * (1960 + f)) with (2681 / 100 * f) by (field; lra).
  apply Rmult_le_reg_r with (1960 + g); [lra|]. replace (2681 / 100 * g / (1960 + g) * (1960 + f) * (1960 + g)) with (2681 / 100 * g * (1960 + f)) by (field; lra). nra.
Qed.
Lemma bark_ramp f : bark f = ramp (fraction f - 53 / 100). Proof. reflexivity. Qed.
(** Every Bark number of a frequency is within 256 units of the exact one. *)
Theorem C143_bark f : finite f -> val f = 0 \/ bpow radix2 (16 - emax) <= val f <= bpow radix2 1000 ->
  finite (f_hertz2bark prec emax f) /\ Rabs (val (f_hertz2bark prec emax f) - bark (val f)) <= 256 * u.
Proof.
  intros F R. destruct Sizes as [_ SE]. pose proof u_small as U. pose proof w_small as W. pose proof big_1020 as BIG. pose proof (tiny_steps 16 ltac:(lia)) as [T1 [_ T3]]. pose proof (bpow_gt_0 radix2 (16 - emax)) as T0.
  pose proof (bpow_gt_0 radix2 1000) as P1000. assert (BB : bpow radix2 1020 = 1048576 * bpow radix2 1000) by (change 1020%Z with (20 + 1000)%Z; rewrite bpow_plus; reflexivity).
  assert (B40 : 1000000000000 <= bpow radix2 1000) by (apply Rle_trans with (bpow radix2 40); [cbn; lra|apply bpow_le; lia]).
  set (t16 := bpow radix2 (16 - emax)) in *. set (b1000 := bpow radix2 1000) in *.
  assert (F0 : 0 <= val f <= b1000) by (destruct R; lra). destruct (widen_val f F) as [Fw Vw]. set (fw := fconv 53 1024 f) in *.
  destruct (dlit_near 2681 100 ltac:(lia) ltac:(lia)) as [Fc [Nc Bc]]. set (c := dlit 2681 100) in *.
  destruct (dlit_near 53 100 ltac:(lia) ltac:(lia)) as [F53 [N53 B53]]. set (l53 := dlit 53 100) in *.
  destruct (dlit_near 15 100 ltac:(lia) ltac:(lia)) as [F15 [N15 B15]]. set (l15 := dlit 15 100) in *.
  destruct (dlit_near 22 100 ltac:(lia) ltac:(lia)) as [F22 [N22 B22]]. set (l22 := dlit 22 100) in *.
  destruct (dlit_near 201 10 ltac:(lia) ltac:(lia)) as [F20 [N20 B20]]. set (l20 := dlit 201 10) in *.
  destruct (int_val 1960 ltac:(lia)) as [FK VK]. set (k1960 := of_Z 53 1024 1960) in *. destruct (int_val 2 ltac:(lia)) as [F2 V2]. set (two := of_Z 53 1024 2) in *.
  (* numerator, denominator, quotient *)
  assert (Nn : near (1) (B2R c * B2R fw) (2681 / 100 * val f)).
  { rewrite Vw. unfold near in *. rewrite <- Rmult_minus_distr_r, !Rabs_mult, <- Rmult_assoc. apply Rmult_le_compat_r; [apply Rabs_pos|]. exact Nc. }
  assert (M1 : moderate (B2R c * B2R fw)). { rewrite Vw. destruct R as [Z|R]; [left; rewrite Z; ring|right]. rewrite Rabs_pos_eq by (apply Rmult_le_pos; lra). split; nra. }
  destruct (mul_near c fw Fc Fw M1) as [Fn N1]. pose proof (near_trans _ _ _ _ _ N1 Nn ltac:(lra) ltac:(lra)) as N2. set (n := fmul 53 1024 c fw) in *.
  assert (M2 : moderate (B2R k1960 + B2R fw)). { rewrite Vw, VK. right. rewrite Rabs_pos_eq by lra. split; [|lra]. apply Rle_trans with (bpow radix2 0); [apply bpow_le; lia|cbn; lra]. }
  assert (DN : finite (fadd 53 1024 k1960 fw) /\ near 1 (B2R (fadd 53 1024 k1960 fw)) (1960 + val f)).
  { destruct (round_near _ M2) as [A B]. destruct (add_cases 53 1024 k1960 fw FK Fw) as [[_ [V G]]|[O _]]; [|exfalso; lra]. split; [exact G|]. rewrite V. rewrite Vw, VK in B. rewrite Vw, VK. exact B. }
  destruct DN as [Fd Nd]. set (d := fadd 53 1024 k1960 fw) in *. pose proof (near_pos _ _ _ Nd ltac:(lra) ltac:(lra)) as Bd.
  pose proof (fraction_bounds (val f) ltac:(lra)) as QB. set (q := fraction (val f)) in *.
  assert (N3 : near (1001 / 1000 * 1 + (1 + 1 + / 1000) + / 1000) (B2R n / B2R d) q).
  { apply (near_trans _ _ _ (B2R n / (1960 + val f))); [apply (near_div 1); [exact Nd|lra|lra]| |lra|lra]. unfold q, fraction. unfold near in N2 |- *. replace (B2R n / (1960 + val f) - 2681 / 100 * val f / (1960 + val f)) with ((B2R n - 2681 / 100 * val f) / (1960 + val f)) by (field; lra).
    unfold Rdiv. rewrite !Rabs_mult. rewrite <- Rmult_assoc. apply Rmult_le_compat_r; [apply Rabs_pos|]. unfold Rdiv in N2. rewrite !Rabs_mult in N2. exact N2. }
  pose proof (near_pos _ _ _ N3 ltac:(lra) ltac:(lra)) as B3.
  assert (M3 : moderate (B2R n / B2R d)).
  { destruct R as [Z|R]; [left; unfold q, fraction in B3; rewrite Z in B3; replace (2681 / 100 * 0 / (1960 + 0)) with 0 in B3 by field; lra|right].
    assert (QL : t16 / 100 <= q).
    { apply Rle_trans with (fraction t16); [|apply fraction_le; lra]. unfold fraction. apply Rmult_le_reg_r with (1960 + t16); [lra|]. replace (2681 / 100 * t16 / (1960 + t16) * (1960 + t16)) with (2681 / 100 * t16) by (field; lra). nra. }
    rewrite Rabs_pos_eq by lra. split; lra. }
  destruct (div_near n d Fn ltac:(lra) M3) as [Fq Nq]. pose proof (near_trans _ _ _ _ _ Nq N3 ltac:(lra) ltac:(lra)) as N4. set (qf := fdiv 53 1024 n d) in *.
  assert (E4 : Rabs (B2R qf - q) <= 108 * u).
  { apply (near_weaken _ (401 / 100)) in N4; [|lra]. unfold near in N4. rewrite (Rabs_pos_eq q) in N4 by lra. eapply Rle_trans; [exact N4|]. assert (401 / 100 * q * u <= 108 * u) by (apply Rmult_le_compat_r; lra). lra. }
  assert (E53 : Rabs (B2R l53 - 53 / 100) <= 53 / 100 * u) by (unfold near in N53; rewrite (Rabs_pos_eq (53 / 100)) in N53 by lra; lra).
  assert (U1 : 108 * u <= / 1000) by lra.
  destruct (sub_u qf l53 (2735 / 100) Fq F53) as [Fb E5]. { apply Rabs_le_inv in E4. apply Rabs_le. lra. } { lra. }
  set (b := fsub 53 1024 qf l53) in *. set (br := q - 53 / 100).
  assert (EB : Rabs (B2R b - br) <= 136 * u). { apply Rabs_le_inv in E4, E5, E53. apply Rabs_le. unfold br. lra. }
  assert (BR : - (54 / 100) <= B2R b <= 264 / 10) by (apply Rabs_le_inv in EB; unfold br in EB; lra).
  pose proof (ramp_lip (B2R b) br _ EB) as ER. change (ramp br) with (bark (val f)) in ER.
  (* the correction *)
  assert (E20 : Rabs (B2R l20 - 201 / 10) <= 201 / 10 * u) by (unfold near in N20; rewrite (Rabs_pos_eq (201 / 10)) in N20 by lra; lra).
  assert (E15 : Rabs (B2R l15 - 15 / 100) <= 15 / 100 * u) by (unfold near in N15; rewrite (Rabs_pos_eq (15 / 100)) in N15 by lra; lra).
  assert (E22 : Rabs (B2R l22 - 22 / 100) <= 22 / 100 * u) by (unfold near in N22; rewrite (Rabs_pos_eq (22 / 100)) in N22 by lra; lra).
  unfold f_hertz2bark. fold fw c l53 l15 l22 l20 k1960 two. fold n d. fold qf. fold b.
  match goal with |- context [fconv prec emax ?t] => set (v := t) end.
  assert (EV : finite v /\ Rabs (B2R v - ramp (B2R b)) <= 60 * u).
  { unfold v. clear v. destruct (flt 53 1024 b two) eqn:C1; unfold flt in C1; rewrite Bltb_correct in C1 by assumption; rewrite V2 in C1.
    - assert (L : B2R b < 2) by (destruct (Rlt_bool_spec (B2R b) 2); [assumption|discriminate]).
      destruct (sub_u two b 3 F2 Fb) as [Fs Es]; [rewrite V2; apply Rabs_le; lra|lra|]. rewrite V2 in Es. set (s := fsub 53 1024 two b) in *.
      assert (SB : -1 <= B2R s <= 3) by (apply Rabs_le_inv in Es; lra).
      destruct (mul_u l15 s 1 F15 Fs) as [Fm Em]; [rewrite Rabs_mult; rewrite (Rabs_pos_eq (B2R l15)) by lra; assert (Rabs (B2R s) <= 3) by (apply Rabs_le; lra); pose proof (Rabs_pos (B2R s)); nra|lra|]. set (m := fmul 53 1024 l15 s) in *.
      assert (EM : Rabs (B2R m - 15 / 100 * (2 - B2R b)) <= 3 * u).
      { replace (B2R m - 15 / 100 * (2 - B2R b)) with ((B2R m - B2R l15 * B2R s) + ((B2R l15 - 15 / 100) * B2R s + 15 / 100 * (B2R s - (2 - B2R b)))) by ring.
        eapply Rle_trans; [apply Rabs_triang|]. assert (Rabs ((B2R l15 - 15 / 100) * B2R s + 15 / 100 * (B2R s - (2 - B2R b))) <= 15 / 100 * u * 3 + 15 / 100 * ((3 + / 1000) * u)); [|lra].
        eapply Rle_trans; [apply Rabs_triang|]. rewrite !Rabs_mult, (Rabs_pos_eq (15 / 100)) by lra. apply Rplus_le_compat; [apply Rmult_le_compat; try apply Rabs_pos; [exact E15|apply Rabs_le; lra]|apply Rmult_le_compat_l; [lra|exact Es]]. }
      destruct (add_u b m 3 Fb Fm) as [Fv Ev]; [apply Rabs_le_inv in EM; apply Rabs_le; lra|lra|]. split; [exact Fv|]. unfold ramp. destruct (Rlt_dec (B2R b) 2); [|lra]. apply Rabs_le_inv in EM, Ev. apply Rabs_le. lra.
    - assert (L : 2 <= B2R b) by (destruct (Rlt_bool_spec (B2R b) 2); [discriminate|assumption]).
      destruct (flt 53 1024 l20 b) eqn:C2; unfold flt in C2; rewrite Bltb_correct in C2 by assumption.
      + assert (L2 : B2R l20 < B2R b) by (destruct (Rlt_bool_spec (B2R l20) (B2R b)); [assumption|discriminate]).
        destruct (sub_u b l20 7 Fb F20) as [Fs Es]; [apply Rabs_le; lra|lra|]. set (s := fsub 53 1024 b l20) in *.
        assert (SB : - 1 <= B2R s <= 7) by (apply Rabs_le_inv in Es; lra).
        destruct (mul_u l22 s 2 F22 Fs) as [Fm Em]; [rewrite Rabs_mult; rewrite (Rabs_pos_eq (B2R l22)) by lra; assert (Rabs (B2R s) <= 7) by (apply Rabs_le; lra); pose proof (Rabs_pos (B2R s)); nra|lra|]. set (m := fmul 53 1024 l22 s) in *.
        assert (EM : Rabs (B2R m - 22 / 100 * (B2R b - 201 / 10)) <= 10 * u).
        { replace (B2R m - 22 / 100 * (B2R b - 201 / 10)) with ((B2R m - B2R l22 * B2R s) + ((B2R l22 - 22 / 100) * B2R s + 22 / 100 * ((B2R s - (B2R b - B2R l20)) - (B2R l20 - 201 / 10)))) by ring.
          eapply Rle_trans; [apply Rabs_triang|]. assert (Rabs ((B2R l22 - 22 / 100) * B2R s + 22 / 100 * ((B2R s - (B2R b - B2R l20)) - (B2R l20 - 201 / 10))) <= 22 / 100 * u * 7 + 22 / 100 * ((7 + / 1000) * u + 201 / 10 * u)); [|lra].
          eapply Rle_trans; [apply Rabs_triang|]. rewrite !Rabs_mult, (Rabs_pos_eq (22 / 100)) by lra. apply Rplus_le_compat; [apply Rmult_le_compat; try apply Rabs_pos; [exact E22|apply Rabs_le; lra]|apply Rmult_le_compat_l; [lra|]]. apply Rabs_le_inv in Es, E20. apply Rabs_le. lra. }
        destruct (add_u b m 30 Fb Fm) as [Fv Ev]; [apply Rabs_le_inv in EM; apply Rabs_le; lra|lra|]. split; [exact Fv|]. unfold ramp. destruct (Rlt_dec (B2R b) 2); [lra|]. apply Rabs_le_inv in EM, Ev, E20. apply Rabs_le. destruct (Rlt_dec (201 / 10) (B2R b)); lra.
      + assert (L2 : B2R b <= B2R l20) by (destruct (Rlt_bool_spec (B2R l20) (B2R b)); [discriminate|assumption]). split; [exact Fb|]. unfold ramp. destruct (Rlt_dec (B2R b) 2); [lra|]. apply Rabs_le_inv in E20. apply Rabs_le. destruct (Rlt_dec (201 / 10) (B2R b)); lra. }
  destruct EV as [Fv EV]. assert (VB : Rabs (B2R v) <= 29).
  { assert (- (54 / 100) <= ramp (B2R b) <= 28) by (unfold ramp; destruct (Rlt_dec (B2R b) 2), (Rlt_dec (201 / 10) (B2R b)); lra). apply Rabs_le_inv in EV. apply Rabs_le. lra. }
  assert (NV : Rabs (rnd (B2R v)) < bpow radix2 emax /\ Rabs (rnd (B2R v) - B2R v) <= 30 * u).
  { split.
    - apply Rle_lt_trans with (bpow radix2 5); [|apply bpow_lt; lia]. assert (VE : Valid_exp (FLT_exp (3 - emax - prec) prec)) by (apply FLT_exp_valid; exact Hprec). apply abs_round_le_generic; auto with typeclass_instances; [apply (fmt_bpow prec emax); destruct Sizes; lia|]. eapply Rle_trans; [exact VB|]. cbn. lra.
    - pose proof (rnd_err prec emax (B2R v)) as E. rewrite <- (roundoff_u prec), <- (smallest_tiny prec emax) in E. destruct Sizes as [S1 _]. assert (SM : smallest prec emax <= u).
      { rewrite (smallest_tiny prec emax), (roundoff_u prec). unfold tiny, unit_roundoff. apply bpow_le. lia. }
      assert (u * Rabs (B2R v) <= u * 29) by (apply Rmult_le_compat_l; lra). lra. }
  destruct (conv_value prec emax v Fv (proj1 NV)) as [Fr Vr]. split; [exact Fr|]. rewrite Vr. destruct NV as [_ NV]. apply Rabs_le_inv in NV, EV, ER. apply Rabs_le. lra.
Qed.
(** So the order is kept up to 512 units. *)
Theorem C143_bark_order_actual f g : finite f -> finite g -> val f = 0 \/ bpow radix2 (16 - emax) <= val f -> val g = 0 \/ bpow radix2 (16 - emax) <= val g <= bpow radix2 1000 -> val f <= val g ->
  val (f_hertz2bark prec emax f) <= val (f_hertz2bark prec emax g) + 512 * u.
Proof.
  intros F G R S O. pose proof (bpow_gt_0 radix2 (16 - emax)) as T0. pose proof (bpow_gt_0 radix2 1000) as T1.
  destruct (C143_bark f F) as [_ E1]. { destruct R as [Z|R]; [left; exact Z|right]. destruct S; lra. }
  destruct (C143_bark g G S) as [_ E2]. assert (B : bark (val f) <= bark (val g)).
  { rewrite !bark_ramp. apply ramp_le. assert (fraction (val f) <= fraction (val g)); [|lra]. apply fraction_le. destruct R; lra. }
  apply Rabs_le_inv in E1, E2. lra.
Qed.

Lemma div_u x y B : finite x -> B2R y <> 0 -> Rabs (B2R x / B2R y) <= B -> 0 <= B <= 1000000 -> finite (fdiv 53 1024 x y) /\ Rabs (B2R (fdiv 53 1024 x y) - (B2R x / B2R y)) <= (B + / 1000) * u.
Proof.
  intros Fx Fy H HB. destruct (opu _ B H HB) as [A E]. destruct (div_cases 53 1024 x y Fx Fy) as [[_ [V [G _]]]|[O _]]; [|exfalso; lra]. split; [exact G|]. rewrite V. exact E.
Qed.
Lemma narrow_u (v : double) B : finite v -> Rabs (B2R v) <= B -> 0 <= B <= 1000000 -> finite (fconv prec emax v) /\ Rabs (val (fconv prec emax v) - B2R v) <= (B + 1) * u.
Proof.
  intros F H HB. pose proof u_small as U. pose proof w_small as W. destruct Sizes as [S1 SE].
  assert (NB : Rabs (rnd (B2R v)) < bpow radix2 emax).
  { apply Rle_lt_trans with (bpow radix2 20); [|apply bpow_lt; lia]. assert (VE : Valid_exp (FLT_exp (3 - emax - prec) prec)) by (apply FLT_exp_valid; exact Hprec). apply abs_round_le_generic; auto with typeclass_instances; [apply (fmt_bpow prec emax); lia|]. eapply Rle_trans; [exact H|]. cbn. lra. }
  destruct (conv_value prec emax v F NB) as [G V]. split; [exact G|]. rewrite V. pose proof (rnd_err prec emax (B2R v)) as E. rewrite <- (roundoff_u prec), <- (smallest_tiny prec emax) in E.
  assert (SM : smallest prec emax <= u). { rewrite (smallest_tiny prec emax), (roundoff_u prec). unfold tiny, unit_roundoff. apply bpow_le. lia. }
  assert (u * Rabs (B2R v) <= u * B) by (apply Rmult_le_compat_l; lra). lra.
Qed.
(** Bark to hertz. *)
Definition unramp (z : R) : R := if Rlt_dec z 2 then (20 * z - 6) / 17 else if Rlt_dec (201 / 10) z then (50 * z + 2211 / 10) / 61 else z.
Definition pole (b : R) : R := 1960 * (b + 53 / 100) / (2628 / 100 - b).
Definition bark_inverse (z : R) : R := pole (unramp z).
Lemma unramp_ramp b : unramp (ramp b) = b.
Proof. unfold ramp. destruct (Rlt_dec b 2); [|destruct (Rlt_dec (201 / 10) b)]; unfold unramp; destruct (Rlt_dec _ 2); try lra; destruct (Rlt_dec (201 / 10) _); lra. Qed.
Lemma unramp_lip x y d : Rabs (x - y) <= d -> Rabs (unramp x - unramp y) <= 118 / 100 * d.
Proof. intros H. apply Rabs_le_inv in H. apply Rabs_le. unfold unramp. destruct (Rlt_dec x 2), (Rlt_dec y 2), (Rlt_dec (201 / 10) x), (Rlt_dec (201 / 10) y); split; lra. Qed.
Lemma unramp_range z : -1 <= z <= 25 -> - (16 / 10) <= unramp z <= 2412 / 100.
Proof. intros H. unfold unramp. destruct (Rlt_dec z 2); [lra|]. destruct (Rlt_dec (201 / 10) z); lra. Qed.
Lemma pole_lip x y d : -2 <= x <= 2413 / 100 -> -2 <= y <= 2413 / 100 -> Rabs (x - y) <= d -> Rabs (pole x - pole y) <= 11369 * d.
Proof.
  intros X Y H. replace (pole x - pole y) with ((x - y) * (1960 * (2681 / 100) / ((2628 / 100 - x) * (2628 / 100 - y)))) by (unfold pole; field; lra).
  assert (P : 215 / 100 * (215 / 100) <= (2628 / 100 - x) * (2628 / 100 - y)) by (apply Rmult_le_compat; lra). set (p := (2628 / 100 - x) * (2628 / 100 - y)) in *.
  assert (Q : 0 <= 1960 * (2681 / 100) / p <= 11369). { assert (0 < / p) by (apply Rinv_0_lt_compat; lra). split; [apply Rmult_le_pos; lra|]. apply Rmult_le_reg_r with p; [lra|]. unfold Rdiv at 1. rewrite Rmult_assoc, Rinv_l, Rmult_1_r by lra. lra. }
  rewrite Rabs_mult, (Rabs_pos_eq (1960 * (2681 / 100) / p)) by lra. rewrite Rmult_comm. apply Rmult_le_compat; try lra. apply Rabs_pos.
Qed.
Lemma pole_fraction f : 0 <= f -> pole (fraction f - 53 / 100) = f.
Proof. intros F. unfold pole, fraction. field. split; lra. Qed.
Theorem C143_bark_inverse z : finite z -> -1 <= val z <= 25 ->
  finite (f_bark2hertz prec emax z) /\ Rabs (val (f_bark2hertz prec emax z) - bark_inverse (val z)) <= 2000000 * u.
Proof.
  intros F R. destruct Sizes as [S1 SE]. pose proof u_small as U. pose proof w_small as W. destruct (widen_val z F) as [Fw Vw]. set (zw := fconv 53 1024 z) in *.
  destruct (dlit_near 201 10 ltac:(lia) ltac:(lia)) as [F20 [N20 _]]. set (l20 := dlit 201 10) in *.
  destruct (dlit_near 2211 10 ltac:(lia) ltac:(lia)) as [F22 [N22 B22]]. set (l22 := dlit 2211 10) in *.
  destruct (dlit_near 53 100 ltac:(lia) ltac:(lia)) as [F53 [N53 B53]]. set (l53 := dlit 53 100) in *.
  destruct (dlit_near 2628 100 ltac:(lia) ltac:(lia)) as [F26 [N26 B26]]. set (l26 := dlit 2628 100) in *.
  assert (E20 : Rabs (B2R l20 - 201 / 10) <= 201 / 10 * u) by (unfold near in N20; rewrite (Rabs_pos_eq (201 / 10)) in N20 by lra; lra).
  assert (E22 : Rabs (B2R l22 - 2211 / 10) <= 2211 / 10 * u) by (unfold near in N22; rewrite (Rabs_pos_eq (2211 / 10)) in N22 by lra; lra).
  assert (E53 : Rabs (B2R l53 - 53 / 100) <= 53 / 100 * u) by (unfold near in N53; rewrite (Rabs_pos_eq (53 / 100)) in N53 by lra; lra).
  assert (E26 : Rabs (B2R l26 - 2628 / 100) <= 2628 / 100 * u) by (unfold near in N26; rewrite (Rabs_pos_eq (2628 / 100)) in N26 by lra; lra).
  unfold f_bark2hertz. fold zw l20 l22 l53 l26.
  match goal with |- context [fconv 53 1024 (if ?c then ?a else ?b)] => set (b' := if c then a else b) end.
  assert (EB : finite b' /\ Rabs (val b' - unramp (val z)) <= 110 * u).
  { unfold b'. clear b'. destruct (of_Z_exact prec emax 2) as [F2 V2]. { assert (2 ^ 1 <= 2 ^ prec)%Z by (apply Z.pow_le_mono_r; lia). lia. }
    destruct (flt prec emax z (of_Z prec emax 2)) eqn:C1; unfold flt in C1; rewrite Bltb_correct in C1 by assumption; rewrite V2 in C1.
    - assert (L : val z < 2) by (destruct (Rlt_bool_spec (val z) 2); [assumption|discriminate]).
      destruct (int_val 20 ltac:(lia)) as [Fc Vc]. destruct (int_val 6 ltac:(lia)) as [F6 V6]. destruct (int_val 17 ltac:(lia)) as [F17 V17].
      destruct (mul_u (of_Z 53 1024 20) zw 40 Fc Fw) as [Fm Em]; [rewrite Vc, Vw; apply Rabs_le; lra|lra|]. rewrite Vc, Vw in Em. set (m := fmul 53 1024 (of_Z 53 1024 20) zw) in *. apply Rabs_le_inv in Em.
      destruct (sub_u m (of_Z 53 1024 6) 46 Fm F6) as [Fs Es]; [rewrite V6; apply Rabs_le; lra|lra|]. rewrite V6 in Es. set (s := fsub 53 1024 m (of_Z 53 1024 6)) in *. apply Rabs_le_inv in Es.
      destruct (div_u s (of_Z 53 1024 17) 3 Fs) as [Fd Ed]; [rewrite V17; lra|rewrite V17; apply Rabs_le; lra|lra|]. rewrite V17 in Ed. set (d := fdiv 53 1024 s (of_Z 53 1024 17)) in *. apply Rabs_le_inv in Ed.
      destruct (narrow_u d 3 Fd) as [Fr Er]; [apply Rabs_le; lra|lra|]. split; [exact Fr|]. apply Rabs_le_inv in Er. unfold unramp. destruct (Rlt_dec (val z) 2); [|lra]. apply Rabs_le. lra.
    - assert (L : 2 <= val z) by (destruct (Rlt_bool_spec (val z) 2); [discriminate|assumption]).
      destruct (flt 53 1024 l20 zw) eqn:C2; unfold flt in C2; rewrite Bltb_correct in C2 by assumption; rewrite Vw in C2.
      + assert (L2 : B2R l20 < val z) by (destruct (Rlt_bool_spec (B2R l20) (val z)); [assumption|discriminate]).
        destruct (int_val 50 ltac:(lia)) as [Fc Vc]. destruct (int_val 61 ltac:(lia)) as [F61 V61].
        destruct (mul_u (of_Z 53 1024 50) zw 1250 Fc Fw) as [Fm Em]; [rewrite Vc, Vw; apply Rabs_le; lra|lra|]. rewrite Vc, Vw in Em. set (m := fmul 53 1024 (of_Z 53 1024 50) zw) in *. apply Rabs_le_inv in Em, E22, E20.
        destruct (add_u m l22 1472 Fm F22) as [Fs Es]; [apply Rabs_le; lra|lra|]. set (s := fadd 53 1024 m l22) in *. apply Rabs_le_inv in Es.
        destruct (div_u s (of_Z 53 1024 61) 25 Fs) as [Fd Ed]; [rewrite V61; lra|rewrite V61; apply Rabs_le; lra|lra|]. rewrite V61 in Ed. set (d := fdiv 53 1024 s (of_Z 53 1024 61)) in *. apply Rabs_le_inv in Ed.
        destruct (narrow_u d 25 Fd) as [Fr Er]; [apply Rabs_le; lra|lra|]. split; [exact Fr|]. apply Rabs_le_inv in Er. unfold unramp. destruct (Rlt_dec (val z) 2); [lra|]. apply Rabs_le. destruct (Rlt_dec (201 / 10) (val z)); lra.
      + assert (L2 : val z <= B2R l20) by (destruct (Rlt_bool_spec (B2R l20) (val z)); [discriminate|assumption]). split; [exact F|]. apply Rabs_le_inv in E20. unfold unramp. destruct (Rlt_dec (val z) 2); [lra|]. apply Rabs_le. destruct (Rlt_dec (201 / 10) (val z)); lra. }
  destruct EB as [Fb EB]. pose proof (unramp_range (val z) R) as UR. assert (BB : - (17 / 10) <= val b' <= 24122 / 1000) by (apply Rabs_le_inv in EB; lra).
  pose proof (pole_lip (val b') (unramp (val z)) _ ltac:(lra) ltac:(lra) EB) as EP. change (pole (unramp (val z))) with (bark_inverse (val z)) in EP.
  destruct (widen_val b' Fb) as [Fbw Vbw]. set (bw := fconv 53 1024 b') in *. clearbody b'. set (b := val b') in *.
  destruct (int_val 1960 ltac:(lia)) as [FK VK]. apply Rabs_le_inv in E53, E26.
  destruct (add_u bw l53 25 Fbw F53) as [Fs Es]; [rewrite Vbw; apply Rabs_le; lra|lra|]. rewrite Vbw in Es. set (s := fadd 53 1024 bw l53) in *. apply Rabs_le_inv in Es.
  destruct (sub_u l26 bw 29 F26 Fbw) as [Fd Ed]; [rewrite Vbw; apply Rabs_le; lra|lra|]. rewrite Vbw in Ed. set (d := fsub 53 1024 l26 bw) in *. apply Rabs_le_inv in Ed.
  destruct (mul_u (of_Z 53 1024 1960) s 49000 FK Fs) as [Fn En]; [rewrite VK; apply Rabs_le; lra|lra|]. rewrite VK in En. set (n := fmul 53 1024 (of_Z 53 1024 1960) s) in *. apply Rabs_le_inv in En.
  assert (DB : 2157 / 1000 <= B2R d) by lra. set (D := 2628 / 100 - b) in *. assert (DR : 2157 / 1000 <= D) by (unfold D; lra).
  assert (ED : Rabs (B2R d - D) <= 56 * u) by (apply Rabs_le; unfold D; lra).
  set (N := 1960 * (b + 53 / 100)) in *. assert (EN : Rabs (B2R n - N) <= 100100 * u) by (apply Rabs_le; unfold N; lra).
  assert (PB : Rabs (N / D) <= 22500).
  { assert (- 2300 <= N <= 48320) by (unfold N; lra). assert (0 < / D) by (apply Rinv_0_lt_compat; lra). assert (I : / D * D = 1) by (apply Rinv_l; lra). apply Rabs_le. split; apply Rmult_le_reg_r with D; try lra; unfold Rdiv; rewrite Rmult_assoc, I; lra. }
  assert (EQ : Rabs (B2R n / B2R d - N / D) <= 631000 * u).
  { replace (B2R n / B2R d - N / D) with (((B2R n - N) - N / D * (B2R d - D)) / B2R d) by (field; lra). unfold Rdiv at 1. assert (ID : 0 < / B2R d) by (apply Rinv_0_lt_compat; lra). rewrite Rabs_mult, (Rabs_pos_eq (/ B2R d)) by lra.
    assert (T : Rabs (B2R n - N - N / D * (B2R d - D)) <= 100100 * u + 22500 * (56 * u)).
    { replace (B2R n - N - N / D * (B2R d - D)) with ((B2R n - N) + - (N / D * (B2R d - D))) by ring. eapply Rle_trans; [apply Rabs_triang|]. rewrite Rabs_Ropp, (Rabs_mult (N / D)). apply Rplus_le_compat; [exact EN|]. apply Rmult_le_compat; try apply Rabs_pos; assumption. }
    apply Rmult_le_reg_r with (B2R d); [lra|]. rewrite Rmult_assoc, Rinv_l, Rmult_1_r by lra. eapply Rle_trans; [exact T|]. assert (631000 * u * (2157 / 1000) <= 631000 * u * B2R d) by (apply Rmult_le_compat_l; lra). lra. }
  assert (QB : Rabs (B2R n / B2R d) <= 22501) by (apply Rabs_le_inv in EQ, PB; apply Rabs_le; lra).
  destruct (div_u n d 22501 Fn ltac:(lra) QB ltac:(lra)) as [Fq Eq]. set (q := fdiv 53 1024 n d) in *. apply Rabs_le_inv in Eq, QB, EQ, EP.
  destruct (narrow_u q 22503 Fq) as [Fr Er]; [apply Rabs_le; lra|lra|]. split; [exact Fr|]. apply Rabs_le_inv in Er. change (pole b) with (N / D) in EP. apply Rabs_le. lra.
Qed.
(** Frequencies up to 20 kHz survive a trip to Bark and back, to about a nanohertz in double and half a hertz in float. *)
Theorem C143_bark_roundtrip f : finite f -> val f = 0 \/ bpow radix2 (16 - emax) <= val f <= 20000 ->
  let g := f_bark2hertz prec emax (f_hertz2bark prec emax f) in finite g /\ Rabs (val g - val f) <= 6000000 * u.
Proof.
  intros F R. pose proof u_small as U. pose proof w_small as W. pose proof (bpow_gt_0 radix2 (16 - emax)) as T0. assert (F0 : 0 <= val f <= 20000) by (destruct R; lra).
  destruct (C143_bark f F) as [Fz Ez]. { destruct R as [Z|R]; [left; exact Z|right]. split; [lra|]. apply Rle_trans with (bpow radix2 20); [cbn; lra|apply bpow_le; lia]. }
  set (z := f_hertz2bark prec emax f) in *.
  assert (QB : 0 <= fraction (val f) <= 24418 / 1000).
  { split; [apply fraction_bounds; lra|]. apply Rle_trans with (fraction 20000); [apply fraction_le; lra|unfold fraction; lra]. }
  assert (BB : - (16 / 100) <= bark (val f) <= 2473 / 100) by (rewrite bark_ramp; unfold ramp; destruct (Rlt_dec _ 2); [lra|]; destruct (Rlt_dec (201 / 10) _); lra).
  assert (ZB : -1 <= val z <= 25) by (apply Rabs_le_inv in Ez; lra).
  destruct (C143_bark_inverse z Fz ZB) as [Fg Eg]. cbv zeta. split; [exact Fg|].
  assert (IF : bark_inverse (bark (val f)) = val f) by (unfold bark_inverse; rewrite bark_ramp, unramp_ramp; apply pole_fraction; lra).
  pose proof (unramp_lip _ _ _ Ez) as EU. pose proof (unramp_range (val z) ZB) as R1. assert (BR : -1 <= bark (val f) <= 25) by lra. pose proof (unramp_range _ BR) as R2. assert (R3 : -2 <= unramp (val z) <= 2413 / 100) by lra. assert (R4 : -2 <= unramp (bark (val f)) <= 2413 / 100) by lra. pose proof (pole_lip _ _ _ R3 R4 EU) as EP.
  change (pole (unramp (bark (val f)))) with (bark_inverse (bark (val f))) in EP. change (pole (unramp (val z))) with (bark_inverse (val z)) in EP. rewrite IF in EP. apply Rabs_le_inv in EP, Eg. apply Rabs_le. lra.
Qed.
End Accuracy.

(** ** The cent scale is odd, except at zero *)
Section Cent.
Context (prec emax : Z) {Hprec : Prec_gt_0 prec} {Hmax : Prec_lt_emax prec emax}.
Notation fl := (binary_float prec emax).
Lemma unit_mul (s : Z) (t : fl) : (s = 1 \/ s = -1)%Z -> (2 <= emax)%Z -> finite t -> finite (fmul prec emax (of_Z prec emax s) t) /\ B2R (fmul prec emax (of_Z prec emax s) t) = IZR s * B2R t.
Proof.
  intros S M F. destruct (of_Z_exact prec emax s) as [Fs Vs]. { assert (1 <= 2 ^ prec)%Z by (pose proof Hprec as P; unfold Prec_gt_0 in P; apply (Z.pow_le_mono_r 2 0 prec); lia). lia. }
  assert (E : round radix2 (FLT_exp (3 - emax - prec) prec) ZnearestE (IZR s * B2R t) = IZR s * B2R t).
  { apply (rnd_id prec emax). destruct S as [-> | ->]; [rewrite Rmult_1_l; apply (fmt_val prec emax)|]. replace (-1 * B2R t) with (- B2R t) by ring. apply generic_format_opp, (fmt_val prec emax). }
  assert (B : Rabs (IZR s * B2R t) < bpow radix2 emax) by (rewrite Rabs_mult; replace (Rabs (IZR s)) with 1 by (destruct S as [-> | ->]; unfold Rabs; destruct (Rcase_abs _); lra); rewrite Rmult_1_l; apply val_bound).
  destruct (mul_cases prec emax (of_Z prec emax s) t Fs F) as [[_ [V G]]|[O _]]; rewrite Vs, E in *; [split; assumption|exfalso; lra].
Qed.
Lemma sign_flip (z : fl) : finite z -> B2R z <> 0 -> exists s, (s = 1 \/ s = -1)%Z /\ f_sign prec emax z = of_Z prec emax s /\ f_sign prec emax (Bopp z) = of_Z prec emax (- s).
Proof.
  intros F N. unfold f_sign, flt. rewrite !Bltb_correct by (try exact F; try reflexivity; rewrite is_finite_Bopp; exact F). rewrite B2R_Bopp. change (B2R (fzero prec emax)) with 0.
  destruct (Rlt_bool_spec (B2R z) 0), (Rlt_bool_spec (- B2R z) 0); try (exfalso; lra); [exists (-1)%Z|exists 1%Z]; auto.
Qed.
(** A frequency and its negative have opposite cents, exactly, and conversely. *)
Theorem C143_cent_odd (flog : fl -> fl) p q z : (2 <= emax)%Z -> finite z -> B2R z <> 0 -> finite (fadd prec emax (fmul prec emax p (flog (fabs prec emax z))) q) ->
  finite (f_hertz2cent prec emax flog p q z) /\ finite (f_hertz2cent prec emax flog p q (Bopp z)) /\ B2R (f_hertz2cent prec emax flog p q (Bopp z)) = - B2R (f_hertz2cent prec emax flog p q z).
Proof.
  intros M F N T. unfold f_hertz2cent. replace (fabs prec emax (Bopp z)) with (fabs prec emax z) by (destruct z; try reflexivity; discriminate F). destruct (sign_flip z F N) as [s [S [-> ->]]].
  destruct (unit_mul s _ S M T) as [F1 V1]. destruct (unit_mul (- s) _ ltac:(lia) M T) as [F2 V2]. split; [exact F1|]. split; [exact F2|]. rewrite V1, V2, opp_IZR. ring.
Qed.
Theorem C143_cent_inverse_odd (fexp : fl -> fl) p q c : (2 <= emax)%Z -> finite c -> B2R c <> 0 -> finite (fexp (fdiv prec emax (fsub prec emax (fabs prec emax c) q) p)) ->
  finite (f_cent2hertz prec emax fexp p q c) /\ finite (f_cent2hertz prec emax fexp p q (Bopp c)) /\ B2R (f_cent2hertz prec emax fexp p q (Bopp c)) = - B2R (f_cent2hertz prec emax fexp p q c).
Proof.
  intros M F N T. unfold f_cent2hertz. replace (fabs prec emax (Bopp c)) with (fabs prec emax c) by (destruct c; try reflexivity; discriminate F). destruct (sign_flip c F N) as [s [S [-> ->]]].
  destruct (unit_mul s _ S M T) as [F1 V1]. destruct (unit_mul (- s) _ ltac:(lia) M T) as [F2 V2]. split; [exact F1|]. split; [exact F2|]. rewrite V1, V2, opp_IZR. ring.
Qed.
End Cent.

(** ** Library functions that meet the hypotheses *)
Definition nearest (y : R) : double := binary_normalize 53 1024 eq_refl eq_refl mode_NE (ZnearestE (scaled_mantissa radix2 (FLT_exp (3 - 1024 - 53) 53) y)) (cexp radix2 (FLT_exp (3 - 1024 - 53) 53) y) false.
Lemma nearest_ok y : Rabs y <= bpow radix2 1020 -> finite (nearest y) /\ B2R (nearest y) = rnd53 y.
Proof.
  intros B. unfold nearest.
  pose proof (binary_normalize_correct 53 1024 eq_refl eq_refl mode_NE (ZnearestE (scaled_mantissa radix2 (FLT_exp (3 - 1024 - 53) 53) y)) (cexp radix2 (FLT_exp (3 - 1024 - 53) 53) y) false) as C. cbv zeta in C.
  assert (VF : Valid_exp (FLT_exp (3 - 1024 - 53) 53)) by (apply FLT_exp_valid; reflexivity).
  change (F2R (Float radix2 (ZnearestE (scaled_mantissa radix2 (FLT_exp (3 - 1024 - 53) 53) y)) (cexp radix2 (FLT_exp (3 - 1024 - 53) 53) y))) with (rnd53 y) in C.
  change (round radix2 (SpecFloat.fexp 53 1024) (round_mode mode_NE) (rnd53 y)) with (rnd53 (rnd53 y)) in C.
  rewrite round_generic in C; [|auto with typeclass_instances|apply generic_format_round; auto with typeclass_instances].
  rewrite Rlt_bool_true in C by (apply op_abs; exact B). destruct C as [C1 [C2 _]]. split; assumption.
Qed.
Definition nlog1p (x : double) : double := if Rlt_dec (B2R x) w then x else nearest (ln (1 + B2R x)).
Definition nexpm1 (x : double) : double := if Rlt_dec (B2R x) (w / 2) then x else nearest (exp (B2R x) - 1).
Lemma nlog1p_within : log1p_within (1 * w) nlog1p.
Proof.
  intros x F X. pose proof w_small as W. destruct (ln_1p_bounds (B2R x) X) as [L1 L2]. unfold nlog1p. set (v := B2R x) in *.
  assert (I : v / (1 + v) * (1 + v) = v) by (field; lra). destruct (Rlt_dec v w) as [S|S].
  - split; [exact F|]. fold v. set (L := ln (1 + v)) in *. set (r := v / (1 + v)) in *. assert (r0 : 0 <= r) by (unfold r; apply Rmult_le_pos; [lra|left; apply Rinv_0_lt_compat; lra]). rewrite Rabs_pos_eq by lra. assert (r * v <= L * w) by (apply Rmult_le_compat; lra). lra.
  - assert (B : v < bpow radix2 1024) by (pose proof (val_bound 53 1024 x) as Q; fold v in Q; apply Rabs_def2 in Q; lra).
    assert (LB : ln (1 + v) <= 1025).
    { assert (H : 1 + v <= bpow radix2 1025). { change 1025%Z with (1 + 1024)%Z. rewrite bpow_plus. change (bpow radix2 1) with 2. assert (1 <= bpow radix2 1024) by (change 1 with (bpow radix2 0); apply bpow_le; lia). lra. }
      apply Rle_trans with (ln (bpow radix2 1025)); [destruct H as [H|H]; [left; apply ln_increasing; lra|rewrite H; lra]|].
      rewrite bpow_powerRZ. change (IZR radix2) with 2. rewrite powerRZ_Rpower by lra. unfold Rpower. rewrite ln_exp. apply Rle_trans with (1025 * 1); [|lra]. apply Rmult_le_compat_l; [lra|].
      rewrite <- (ln_exp 1). left. apply ln_increasing; [lra|]. pose proof (exp_ineq1 1 ltac:(lra)). lra. }
    assert (W53 : w = bpow radix2 (-53)) by reflexivity.
    assert (LL : bpow radix2 (-54) <= ln (1 + v)).
    { apply Rle_trans with (w / (1 + w)).
      - assert (w = 2 * bpow radix2 (-54)) by (rewrite W53; change (-53)%Z with (1 + -54)%Z; rewrite bpow_plus; reflexivity). apply Rmult_le_reg_r with (1 + w); [lra|]. replace (w / (1 + w) * (1 + w)) with w by (field; lra). pose proof (bpow_gt_0 radix2 (-54)). nra.
      - eapply Rle_trans; [|exact L1]. apply Rmult_le_reg_r with (1 + v); [lra|]. rewrite I. apply Rmult_le_reg_r with (1 + w); [lra|]. replace (w / (1 + w) * (1 + v) * (1 + w)) with (w * (1 + v)) by (field; lra). nra. }
    pose proof (bpow_gt_0 radix2 (-54)) as P54. assert (R1 : Rabs (ln (1 + v)) <= bpow radix2 1020). { rewrite Rabs_pos_eq by lra. eapply Rle_trans; [exact LB|]. apply Rle_trans with (bpow radix2 11); [cbn; lra|apply bpow_le; lia]. }
    destruct (nearest_ok (ln (1 + v)) R1) as [G V]. split; [exact G|]. rewrite V. destruct (op_rel (ln (1 + v))) as [_ E].
    + split; [|exact R1]. rewrite Rabs_pos_eq by lra. eapply Rle_trans; [|exact LL]. apply bpow_le. lia.
    + rewrite (Rabs_pos_eq (ln (1 + v))) in E by lra. lra.
Qed.
Lemma nexpm1_within : expm1_within (1 * w) nexpm1.
Proof.
  intros x F X. pose proof w_small as W. unfold nexpm1. set (v := B2R x) in *. destruct (expm1_bounds v ltac:(lra)) as [L1 _].
  destruct (Rlt_dec v (w / 2)) as [Sm|Sm].
  - split; [exact F|]. fold v. assert (U : exp v - 1 <= v * (1 + w)).
    { assert (H : (1 - v) * exp v <= 1). { assert (K : 1 - v <= exp (- v)). { destruct (Req_dec v 0) as [->|N]; [rewrite Ropp_0, exp_0; lra|]. pose proof (exp_ineq1 (- v) ltac:(lra)). lra. }
        rewrite exp_Ropp in K. pose proof (exp_pos v) as P. assert (I : / exp v * exp v = 1) by (apply Rinv_l; lra). rewrite <- I. apply Rmult_le_compat_r; lra. }
      pose proof (exp_pos v) as P. set (ev := exp v) in *. assert (ev - 1 <= v * ev) by lra. assert (ev <= 1 + w) by nra. apply Rle_trans with (v * ev); [lra|apply Rmult_le_compat_l; lra]. }
    rewrite Rabs_left1 by lra. assert (v * w <= (exp v - 1) * w) by (apply Rmult_le_compat_r; lra). lra.
  - assert (EB : exp v <= bpow radix2 200).
    { apply Rle_trans with (exp (INR 100 * 1)); [replace (INR 100 * 1) with 100 by (cbn; lra); destruct (proj2 X) as [H| ->]; [left; apply exp_increasing; lra|lra]|].
      assert (Q : forall n, exp (INR n * 1) <= bpow radix2 (2 * Z.of_nat n)).
      { intros n. induction n as [|n IH]; [rewrite Rmult_0_l, exp_0; cbn; lra|]. rewrite S_INR. replace ((INR n + 1) * 1) with (INR n * 1 + 1) by ring. rewrite exp_plus. replace (2 * Z.of_nat (S n))%Z with (2 * Z.of_nat n + 2)%Z by lia. rewrite bpow_plus. change (bpow radix2 2) with 4.
        pose proof exp_le_3. pose proof (exp_pos (INR n * 1)). pose proof (exp_pos 1). apply Rmult_le_compat; lra. }
      exact (Q 100%nat). }
    assert (W53 : w / 2 = bpow radix2 (-54)) by (change w with (bpow radix2 (-53)); change (-53)%Z with (1 + -54)%Z; rewrite bpow_plus; change (bpow radix2 1) with 2; field).
    pose proof (bpow_gt_0 radix2 (-54)) as P54. assert (R1 : Rabs (exp v - 1) <= bpow radix2 1020). { rewrite Rabs_pos_eq by lra. apply Rle_trans with (bpow radix2 200); [lra|apply bpow_le; lia]. }
    destruct (nearest_ok (exp v - 1) R1) as [G V]. split; [exact G|]. rewrite V. destruct (op_rel (exp v - 1)) as [_ E].
    + split; [|exact R1]. rewrite Rabs_pos_eq by lra. apply Rle_trans with (bpow radix2 (-54)); [apply bpow_le; lia|lra].
    + rewrite (Rabs_pos_eq (exp v - 1)) in E by lra. lra.
Qed.
(** 440 Hz as a double, to mel and back. *)
Example C143_ex : Rabs (B2R (f_mel2hertz 53 1024 nexpm1 (f_hertz2mel 53 1024 nlog1p (dbl 440))) - 440) <= 440 * (69 * w) /\ Rabs (B2R (f_hertz2bark 53 1024 (dbl 440)) - bark 440) <= 256 * w.
Proof.
  assert (V : finite (dbl 440) /\ B2R (dbl 440) = 440) by (apply (of_Z_exact 53 1024); lia). destruct V as [F V].
  assert (T : bpow radix2 (20 - 1024) <= 440) by (apply Rle_trans with (bpow radix2 0); [apply bpow_le; lia|cbn; lra]). assert (T2 : bpow radix2 (16 - 1024) <= 440) by (apply Rle_trans with (bpow radix2 0); [apply bpow_le; lia|cbn; lra]).
  assert (T3 : 440 <= bpow radix2 1000) by (apply Rle_trans with (bpow radix2 9); [cbn; lra|apply bpow_le; lia]). split.
  - destruct (C143_mel_roundtrip 53 1024 ltac:(lia) nlog1p nexpm1 1 1 nlog1p_within nexpm1_within ltac:(lra) (dbl 440) F) as [_ E]; [right; rewrite V; lra|]. rewrite V in E. cbv zeta in E. lra.
  - destruct (C143_bark 53 1024 ltac:(lia) (dbl 440) F) as [_ E]; [right; rewrite V; lra|]. rewrite V in E. exact E.
Qed.
(** A rounded logarithm that never decreases. *)
Definition mlog1p (x : double) : double := if is_finite x then nearest (ln (1 + B2R x)) else x.
Lemma mlog1p_rising : rising (dbl 0) mlog1p.
Proof.
  assert (LB : forall x : double, finite x -> 0 <= B2R x -> Rabs (ln (1 + B2R x)) <= bpow radix2 1020).
  { intros x F X. destruct (mel_bounds (B2R x)) as [[_ M] _]. { pose proof (val_bound 53 1024 x) as Q. apply Rabs_def2 in Q. lra. }
    destruct (nlog1p_within x F X) as [_ _]. pose proof (ln_1p_bounds (B2R x) X) as [L _]. assert (0 <= B2R x / (1 + B2R x)) by (apply Rmult_le_pos; [lra|left; apply Rinv_0_lt_compat; lra]). rewrite Rabs_pos_eq by lra.
    assert (C : ln (1 + B2R x) <= 1025).
    { assert (H1 : 1 + B2R x <= bpow radix2 1025). { pose proof (val_bound 53 1024 x) as Q. apply Rabs_def2 in Q. change 1025%Z with (1 + 1024)%Z. rewrite bpow_plus. change (bpow radix2 1) with 2. assert (1 <= bpow radix2 1024) by (change 1 with (bpow radix2 0); apply bpow_le; lia). lra. }
      apply Rle_trans with (ln (bpow radix2 1025)); [destruct H1 as [H1|H1]; [left; apply ln_increasing; lra|rewrite H1; lra]|].
      rewrite bpow_powerRZ. change (IZR radix2) with 2. rewrite powerRZ_Rpower by lra. unfold Rpower. rewrite ln_exp. apply Rle_trans with (1025 * 1); [|lra]. apply Rmult_le_compat_l; [lra|].
      rewrite <- (ln_exp 1). left. apply ln_increasing; [lra|]. pose proof (exp_ineq1 1 ltac:(lra)). lra. }
    eapply Rle_trans; [exact C|]. apply Rle_trans with (bpow radix2 11); [cbn; lra|apply bpow_le; lia]. }
  intros x y Z L. apply leb_true in Z, L. destruct Z as [_ [Nx Z]]. destruct L as [_ [Ny L]]. change (level 53 1024 (dbl 0)) with 0 in Z. apply leb_true. unfold mlog1p.
  destruct (is_finite x) eqn:Fx.
  - rewrite (level_fin _ _ x) in * by exact Fx. destruct (nearest_ok _ (LB x Fx Z)) as [Gx Vx]. split; [apply fin_not_nan; exact Gx|]. destruct (is_finite y) eqn:Fy.
    + rewrite (level_fin _ _ y) in L by exact Fy. destruct (nearest_ok _ (LB y Fy ltac:(lra))) as [Gy Vy]. split; [apply fin_not_nan; exact Gy|]. rewrite !level_fin by assumption. rewrite Vx, Vy. apply (rnd_le 53 1024).
      destruct L as [L| ->]; [left; apply ln_increasing; lra|lra].
    + split; [exact Ny|]. destruct y as [s|[]| |s m e B]; try discriminate; cbn [level] in *; pose proof (bpow_gt_0 radix2 1024); [lra|]. apply (level_bound 53 1024).
  - destruct x as [s|[]| |s m e B]; try discriminate; cbn [level] in *; pose proof (bpow_gt_0 radix2 1024); [lra|]. split; [reflexivity|]. destruct (is_finite y) eqn:Fy.
    + exfalso. rewrite level_fin in L by exact Fy. pose proof (val_bound 53 1024 y) as Q. apply Rabs_def2 in Q. lra.
    + split; [exact Ny|exact L].
Qed.
Example C143_order_ex : le (f_hertz2mel 24 128 mlog1p (sgl 440)) (f_hertz2mel 24 128 mlog1p (sgl 880)).
Proof. apply C143_mel_order; [exact mlog1p_rising|vm_compute; reflexivity|vm_compute; reflexivity]. Qed.
Print Assumptions C143_mel_order.
Print Assumptions C143_erb_order.
Print Assumptions C143_mel_inverse_order.
Print Assumptions C143_erb_inverse_order.
Print Assumptions C143_bark_order_refuted.
Print Assumptions C143_mel.
Print Assumptions C143_mel_inverse.
Print Assumptions C143_mel_roundtrip.
Print Assumptions C143_bark.
Print Assumptions C143_bark_order_actual.
Print Assumptions C143_bark_inverse.
Print Assumptions C143_bark_roundtrip.
Print Assumptions C143_cent_odd.
Print Assumptions C143_cent_inverse_odd.
