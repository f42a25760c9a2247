From Coq Require Import Psatz.
From Verif Require Import RealBase RealBaseProofs BaseProofs Cplx CplxProofs BiquadModel BiquadSpec BiquadProofs StabilityProofs CascadeProofs DesignModel DesignSpec DesignProofs.
Local Open Scope R_scope.

Lemma pow10_pos x : 0 < pow10 x. Proof. unfold pow10, Rpower. apply exp_pos. Qed.

Definition cc (x y : R) : C := (x, y).
Arguments cc (_ _)%R.

Ltac resp Eq HSt M :=
  eapply response_coeffs; [|exact Eq|exact (stable_den _ _ HSt M)|]; [apply Rgt_not_eq; lra|].

(** ** RBJ shelves *)
Section Shelf.
Variables fc fs Q g : R.
Hypothesis HF : valid_freq fc fs.
Hypothesis HQ : 0 < Q.
Let w := 2 * PI * fc / fs.
Let s := sin w.
Let c := cos w.
Let A := sqrt (pow10 (g / 20)).
Let beta := sqrt A / Q.

Lemma HA : 0 < A. Proof. apply sqrt_lt_R0, pow10_pos. Qed.
Lemma HAA : A * A = pow10 (g / 20). Proof. apply sqrt_sqrt. left. apply pow10_pos. Qed.
Lemma Hb : 0 < beta.
Proof. apply Rmult_lt_0_compat; [apply sqrt_lt_R0, HA|apply Rinv_0_lt_compat, HQ]. Qed.
Lemma Hs' : 0 < s. Proof. apply (Hs fc fs HF). Qed.
Lemma Hc' : -1 < c < 1. Proof. apply (Hc fc fs HF). Qed.

Lemma shelf_start (f : R -> R -> R -> R -> res biquad) :
  bind (rsqrt (pow10 (g / 20))) (fun A => bind (rdiv (2 * PI * fc) fs) (fun omega =>
    bind (rsqrt A) (fun sA => bind (rdiv sA Q) (fun beta => f A (sin omega) (cos omega) beta))))
  = f A s c beta.
Proof.
  rewrite rsqrt_ok by (left; apply pow10_pos). cbn [bind]. rewrite rdiv_ok by (destruct HF; lra). cbn [bind].
  rewrite rsqrt_ok by (left; apply HA). cbn [bind]. rewrite rdiv_ok by lra. reflexivity.
Qed.

(** A ratio of moduli determined by the values of both polynomials. *)
Lemma half_gain q z (X Y : C) (k : R) : Cnorm2 X = Cnorm2 Y -> Y <> C0 ->
  response q z (RtoC k * X / Y)%C -> exists h, response q z h /\ Cnorm2 h = k * k.
Proof.
  intros HN HY HR. eexists; split; [exact HR|].
  assert (HM : Cmod X = Cmod Y) by (unfold Cmod; rewrite HN; reflexivity).
  rewrite <- Cmod_sqr. rewrite Cmod_div by auto. rewrite Cmod_mul, Cmod_RtoC, HM.
  assert (0 < Cmod Y) by (apply Cmod_pos; auto).
  replace (Rabs k * Cmod Y / Cmod Y) with (Rabs k) by (field; lra).
  unfold Rabs. destruct (Rcase_abs k); ring.
Qed.

Lemma rbj_lowshelf_lemma : exists q, rbj_lowshelf fc fs Q g = Ok q /\ at_rest q /\ bq_stability q = true /\
  response q at_dc (RtoC (pow10 (g / 20))) /\ response q at_nyquist C1 /\
  exists h, response q (at_freq fc fs) h /\ Cnorm2 h = pow10 (g / 20).
Proof.
  unfold rbj_lowshelf.
  rewrite (shelf_start (fun A s c beta => bq_coeffs ((A + 1) + (A - 1) * c + beta * s) (- (2) * ((A - 1) + (A + 1) * c)) ((A + 1) + (A - 1) * c - beta * s)
            (A * ((A + 1) - (A - 1) * c + beta * s)) (2 * A * ((A - 1) - (A + 1) * c)) (A * ((A + 1) - (A - 1) * c - beta * s)))).
  pose proof HA as PA. pose proof Hb as PB. pose proof Hs' as PS. pose proof Hc' as PC. pose proof HAA as PAA.
  assert (PBS : 0 < beta * s) by (apply Rmult_lt_0_compat; auto).
  assert (P0 : 0 < A + 1 + (A - 1) * c) by nra.
  edestruct jury as [q [E [HR [HSt Eq]]]]; cycle 4.
  { exists q. split; [exact E|]. split; [exact HR|]. split; [exact HSt|]. split; [|split].
    - resp Eq HSt mod_dc. rewrite <- PAA. apply C_eq; simpl; ring.
    - resp Eq HSt mod_ny. apply C_eq; simpl; ring.
    - rewrite <- PAA. apply (half_gain q _ (cc (A - 1) (beta)) (cc (- (A - 1)) (beta))).
      + unfold Cnorm2; simpl; ring.
      + intros HE. injection HE. intros. lra.
      + resp Eq HSt (mod_freq fc fs). unfold at_freq. fold w.
        assert (HY : (cc (- (A - 1)) (beta)) <> C0) by (intros HE; injection HE; intros; lra).
        assert (EN : (RtoC (A * (A + 1 - (A - 1) * c + beta * s)) * Cexp w * Cexp w + RtoC (2 * A * (A - 1 - (A + 1) * c)) * Cexp w +
            RtoC (A * (A + 1 - (A - 1) * c - beta * s)) = RtoC (2 * A * (s * s)) * Cexp w * (cc (A - 1) (beta)))%C).
        { transitivity (RtoC (A * (A + 1 - (A - 1) * c)) * (Cexp w * Cexp w + C1) + RtoC (A * (beta * s)) * (Cexp w * Cexp w - C1)
              + RtoC (2 * A * (A - 1 - (A + 1) * c)) * Cexp w)%C; [apply C_eq; simpl; ring|].
          rewrite unit_sq, unit_sq'. fold c s. pose proof (sc2 w) as SC. fold s c in SC.
          assert (ES : s * s = 1 - c * c) by lra.
          transitivity (Cexp w * cc (2 * A * (A - 1) * (1 - c * c)) (2 * A * beta * (s * s)))%C; [apply C_eq; simpl; ring|].
          rewrite ES. apply C_eq; simpl; ring. }
        assert (ED : (RtoC (A + 1 + (A - 1) * c + beta * s) * Cexp w * Cexp w + RtoC (- (2) * (A - 1 + (A + 1) * c)) * Cexp w +
            RtoC (A + 1 + (A - 1) * c - beta * s) = RtoC (2 * (s * s)) * Cexp w * (cc (- (A - 1)) (beta)))%C).
        { transitivity (RtoC (A + 1 + (A - 1) * c) * (Cexp w * Cexp w + C1) + RtoC (beta * s) * (Cexp w * Cexp w - C1)
              + RtoC (- (2) * (A - 1 + (A + 1) * c)) * Cexp w)%C; [apply C_eq; simpl; ring|].
          rewrite unit_sq, unit_sq'. fold c s. pose proof (sc2 w) as SC. fold s c in SC.
          assert (ES : s * s = 1 - c * c) by lra.
          transitivity (Cexp w * cc (- (2) * (A - 1) * (1 - c * c)) (2 * beta * (s * s)))%C; [apply C_eq; simpl; ring|].
          rewrite ES. apply C_eq; simpl; ring. }
        rewrite EN, ED. rewrite !RtoC_mul. field. exact HY. }
  - nra.
  - nra.
  - nra.
  - nra.
Qed.

Lemma rbj_highshelf_lemma : exists q, rbj_highshelf fc fs Q g = Ok q /\ at_rest q /\ bq_stability q = true /\
  response q at_dc C1 /\ response q at_nyquist (RtoC (pow10 (g / 20))) /\
  exists h, response q (at_freq fc fs) h /\ Cnorm2 h = pow10 (g / 20).
Proof.
  unfold rbj_highshelf.
  rewrite (shelf_start (fun A s c beta => bq_coeffs ((A + 1) - (A - 1) * c + beta * s) (2 * ((A - 1) - (A + 1) * c)) ((A + 1) - (A - 1) * c - beta * s)
            (A * ((A + 1) + (A - 1) * c + beta * s)) (- (2) * A * ((A - 1) + (A + 1) * c)) (A * ((A + 1) + (A - 1) * c - beta * s)))).
  pose proof HA as PA. pose proof Hb as PB. pose proof Hs' as PS. pose proof Hc' as PC. pose proof HAA as PAA.
  assert (PBS : 0 < beta * s) by (apply Rmult_lt_0_compat; auto).
  assert (P0 : 0 < A + 1 - (A - 1) * c) by nra.
  edestruct jury as [q [E [HR [HSt Eq]]]]; cycle 4.
  { exists q. split; [exact E|]. split; [exact HR|]. split; [exact HSt|]. split; [|split].
    - resp Eq HSt mod_dc. apply C_eq; simpl; ring.
    - resp Eq HSt mod_ny. rewrite <- PAA. apply C_eq; simpl; ring.
    - rewrite <- PAA. apply (half_gain q _ (cc (- (A - 1)) (beta)) (cc (A - 1) (beta))).
      + unfold Cnorm2; simpl; ring.
      + intros HE. injection HE. intros. lra.
      + resp Eq HSt (mod_freq fc fs). unfold at_freq. fold w.
        assert (HY : (cc (A - 1) (beta)) <> C0) by (intros HE; injection HE; intros; lra).
        assert (EN : (RtoC (A * (A + 1 + (A - 1) * c + beta * s)) * Cexp w * Cexp w + RtoC (- (2) * A * (A - 1 + (A + 1) * c)) * Cexp w +
            RtoC (A * (A + 1 + (A - 1) * c - beta * s)) = RtoC (2 * A * (s * s)) * Cexp w * (cc (- (A - 1)) (beta)))%C).
        { transitivity (RtoC (A * (A + 1 + (A - 1) * c)) * (Cexp w * Cexp w + C1) + RtoC (A * (beta * s)) * (Cexp w * Cexp w - C1)
              + RtoC (- (2) * A * (A - 1 + (A + 1) * c)) * Cexp w)%C; [apply C_eq; simpl; ring|].
          rewrite unit_sq, unit_sq'. fold c s. pose proof (sc2 w) as SC. fold s c in SC.
          assert (ES : s * s = 1 - c * c) by lra.
          transitivity (Cexp w * cc (- (2) * A * (A - 1) * (1 - c * c)) (2 * A * beta * (s * s)))%C; [apply C_eq; simpl; ring|].
          rewrite ES. apply C_eq; simpl; ring. }
        assert (ED : (RtoC (A + 1 - (A - 1) * c + beta * s) * Cexp w * Cexp w + RtoC (2 * (A - 1 - (A + 1) * c)) * Cexp w +
            RtoC (A + 1 - (A - 1) * c - beta * s) = RtoC (2 * (s * s)) * Cexp w * (cc (A - 1) (beta)))%C).
        { transitivity (RtoC (A + 1 - (A - 1) * c) * (Cexp w * Cexp w + C1) + RtoC (beta * s) * (Cexp w * Cexp w - C1)
              + RtoC (2 * (A - 1 - (A + 1) * c)) * Cexp w)%C; [apply C_eq; simpl; ring|].
          rewrite unit_sq, unit_sq'. fold c s. pose proof (sc2 w) as SC. fold s c in SC.
          assert (ES : s * s = 1 - c * c) by lra.
          transitivity (Cexp w * cc (2 * (A - 1) * (1 - c * c)) (2 * beta * (s * s)))%C; [apply C_eq; simpl; ring|].
          rewrite ES. apply C_eq; simpl; ring. }
        rewrite EN, ED. rewrite !RtoC_mul. field. exact HY. }
  - nra.
  - nra.
  - nra.
  - nra.
Qed.
End Shelf.

(** ** Zoelzer designs *)
Lemma theta_range fc fs : valid_freq fc fs -> 0 < PI * fc / fs < PI / 2.
Proof.
  intros H. pose proof (omega_range fc fs H) as [H1 H2].
  replace (PI * fc / fs) with (2 * PI * fc / fs / 2) by (unfold Rdiv; ring_simplify; lra). lra.
Qed.

Lemma zoe_K_ok fc fs : valid_freq fc fs -> exists K, zoe_K fc fs = Ok K /\ 0 < K /\
  (at_freq fc fs - C1 = RtoC K * Ci * (at_freq fc fs + C1))%C.
Proof.
  intros HF. pose proof (theta_range fc fs HF) as [H1 H2].
  assert (HC : 0 < cos (PI * fc / fs)) by (apply cos_gt_0; pose proof PI_RGT_0; lra).
  exists (tan (PI * fc / fs)). unfold zoe_K. rewrite rdiv_ok by (destruct HF; lra). cbn [bind]. unfold rtan.
  destruct (Req_EM_T (cos (PI * fc / fs)) 0); [lra|]. split; [reflexivity|]. split; [apply tan_gt_0; lra|].
  unfold at_freq. replace (2 * PI * fc / fs) with (2 * (PI * fc / fs)) by (unfold Rdiv; ring).
  set (t := PI * fc / fs) in *. pose proof (sc2 t) as SC.
  assert (HT : tan t * cos t = sin t) by (unfold tan; field; lra). unfold Cexp.
  rewrite (cos_2a t), (sin_2a t). set (T := tan t) in *. set (X := cos t) in *. set (S := sin t) in *.
  clearbody T X S. subst S. apply C_eq; simpl.
  - replace 1 with (T * X * (T * X) + X * X) at 1 by lra. ring.
  - transitivity (T * (X * X - T * X * (T * X) + (T * X * (T * X) + X * X))); [ring|]. rewrite SC. ring.
Qed.

(** A section written in the analogue variable: numerator p + q s + r s^2 over p' + q' s + r' s^2. *)
Lemma zform fc fs K p u r p' u' r' norm : 0 < K ->
  (at_freq fc fs - C1 = RtoC K * Ci * (at_freq fc fs + C1))%C ->
  0 < p' -> 0 < u' -> 0 < r' -> norm = 1 / (p' + u' * K + r' * (K * K)) ->
  exists q, bq_coeffs 1 (2 * (r' * (K * K) - p') * norm) ((p' - u' * K + r' * (K * K)) * norm)
     ((p + u * K + r * (K * K)) * norm) (2 * (r * (K * K) - p) * norm) ((p - u * K + r * (K * K)) * norm) = Ok q /\
   at_rest q /\ bq_stability q = true /\
   response q at_dc (RtoC (r / r')) /\ response q at_nyquist (RtoC (p / p')) /\
   response q (at_freq fc fs) ((cc (r - p) (u)) / (cc (r' - p') (u')))%C.
Proof.
  intros HK Ez Hp Hu Hr En. set (D := p' + u' * K + r' * (K * K)) in *.
  assert (HUK : 0 < u' * K) by nra. assert (HRK : 0 < r' * (K * K)) by (apply Rmult_lt_0_compat; nra).
  assert (HD : 0 < D) by (unfold D; lra).
  destruct (jury D (2 * (r' * (K * K) - p')) (p' - u' * K + r' * (K * K)) (p + u * K + r * (K * K)) (2 * (r * (K * K) - p)) (p - u * K + r * (K * K)))
    as [q [E [HR [HSt Eq]]]]; try (unfold D; lra).
  exists q. split.
  { rewrite bq_coeffs_ok by lra. f_equal. rewrite Eq, En. f_equal; field; lra. }
  split; [exact HR|]. split; [exact HSt|]. split; [|split].
  - resp Eq HSt mod_dc. unfold at_dc, D. apply C_eq; simpl; field; lra.
  - resp Eq HSt mod_ny. unfold at_nyquist, D. apply C_eq; simpl; field; lra.
  - resp Eq HSt (mod_freq fc fs). set (z := at_freq fc fs) in *.
    assert (X : forall a b d, (RtoC (a + b * K + d * (K * K)) * z * z + RtoC (2 * (d * (K * K) - a)) * z + RtoC (a - b * K + d * (K * K))
        = RtoC (K * K) * (z + C1) * (z + C1) * (cc (d - a) (b)))%C).
    { intros a b d. transitivity (RtoC a * ((z - C1) * (z - C1)) + RtoC (b * K) * ((z - C1) * (z + C1)) + RtoC (d * (K * K)) * ((z + C1) * (z + C1)))%C.
      - apply C_eq; simpl; ring.
      - rewrite Ez. apply C_eq; simpl; ring. }
    unfold D. rewrite !X.
    assert (HY : (cc (r' - p') (u')) <> C0) by (intros HE; injection HE; intros; lra).
    field. exact HY.
Qed.

Lemma sqrt2_pos : 0 < sqrt 2. Proof. apply sqrt_lt_R0; lra. Qed.

Section Zoe.
Variables fc fs : R.
Hypothesis HF : valid_freq fc fs.

Ltac start HK :=
  destruct (zoe_K_ok fc fs HF) as [K [-> [HK Ez]]]; cbn [bind].
Ltac zmatch Hx := let Z1 := fresh in let Z2 := fresh in destruct Hx as [q [E [HR [HSt [Z1 [Z2 RespC]]]]]];
  exists q; split; [rewrite <- E; f_equal; ring|]; split; [exact HR|]; split; [exact HSt|].

Lemma zoe_lowpass_lemma Q : 0 < Q -> exists q, zoe_lowpass fc fs Q = Ok q /\ at_rest q /\ bq_stability q = true /\
  response q at_dc C1 /\ response q at_nyquist C0 /\ response q (at_freq fc fs) (Cmul (RtoC (- Q)) Ci).
Proof.
  intros HQ. unfold zoe_lowpass. start HK. rewrite rdiv_ok by lra. cbn [bind].
  assert (0 < K / Q) by (apply Rmult_lt_0_compat; [lra|apply Rinv_0_lt_compat; lra]).
  rewrite rdiv_ok by nra. cbn [bind].
  assert (0 < 1 / Q) by (apply Rmult_lt_0_compat; [lra|apply Rinv_0_lt_compat; lra]).
  assert (EN : 1 / (1 + K / Q + K * K) = 1 / (1 + 1 / Q * K + 1 * (K * K))) by (f_equal; field; lra).
  pose proof (zform fc fs K 0 0 1 1 (1 / Q) 1 _ HK Ez ltac:(lra) ltac:(auto) ltac:(lra) EN) as Hx.
  destruct Hx as [q [E [HR [HSt [H1 [H2 H3]]]]]].
  exists q. split.
  { rewrite <- E. replace (1 / Q * K) with (K / Q) by (field; lra). f_equal; ring. }
  split; [exact HR|]. split; [exact HSt|]. split; [|split].
  - replace C1 with (RtoC (1 / 1)); auto. apply C_eq; simpl; field.
  - replace C0 with (RtoC (0 / 1)); auto. apply C_eq; simpl; field.
  - replace (RtoC (- Q) * Ci)%C with ((cc (1 - 0) (0)) / (cc (1 - 1) (1 / Q)))%C; auto.
    apply C_eq; simpl; unfold Cnorm2; simpl; field; lra.
Qed.

Lemma zoe_highpass_lemma Q : 0 < Q -> exists q, zoe_highpass fc fs Q = Ok q /\ at_rest q /\ bq_stability q = true /\
  response q at_dc C0 /\ response q at_nyquist C1 /\ response q (at_freq fc fs) (Cmul (RtoC Q) Ci).
Proof.
  intros HQ. unfold zoe_highpass. start HK. rewrite rdiv_ok by lra. cbn [bind].
  assert (0 < K / Q) by (apply Rmult_lt_0_compat; [lra|apply Rinv_0_lt_compat; lra]).
  rewrite rdiv_ok by nra. cbn [bind].
  assert (0 < 1 / Q) by (apply Rmult_lt_0_compat; [lra|apply Rinv_0_lt_compat; lra]).
  assert (EN : 1 / (1 + K / Q + K * K) = 1 / (1 + 1 / Q * K + 1 * (K * K))) by (f_equal; field; lra).
  pose proof (zform fc fs K 1 0 0 1 (1 / Q) 1 _ HK Ez ltac:(lra) ltac:(auto) ltac:(lra) EN) as Hx.
  destruct Hx as [q [E [HR [HSt [H1 [H2 H3]]]]]].
  exists q. split.
  { rewrite <- E. replace (1 / Q * K) with (K / Q) by (field; lra). f_equal; ring. }
  split; [exact HR|]. split; [exact HSt|]. split; [|split].
  - replace C0 with (RtoC (0 / 1)); auto. apply C_eq; simpl; field.
  - replace C1 with (RtoC (1 / 1)); auto. apply C_eq; simpl; field.
  - replace (RtoC Q * Ci)%C with ((cc (0 - 1) (0)) / (cc (1 - 1) (1 / Q)))%C; auto.
    apply C_eq; simpl; unfold Cnorm2; simpl; field; lra.
Qed.

Lemma zoe_bandpass_lemma Q : 0 < Q -> exists q, zoe_bandpass fc fs Q = Ok q /\ at_rest q /\ bq_stability q = true /\
  response q at_dc C0 /\ response q at_nyquist C0 /\ response q (at_freq fc fs) C1.
Proof.
  intros HQ. unfold zoe_bandpass. start HK. rewrite rdiv_ok by lra. cbn [bind].
  assert (0 < K / Q) by (apply Rmult_lt_0_compat; [lra|apply Rinv_0_lt_compat; lra]).
  rewrite rdiv_ok by nra. cbn [bind].
  assert (0 < 1 / Q) by (apply Rmult_lt_0_compat; [lra|apply Rinv_0_lt_compat; lra]).
  assert (EN : 1 / (1 + K / Q + K * K) = 1 / (1 + 1 / Q * K + 1 * (K * K))) by (f_equal; field; lra).
  pose proof (zform fc fs K 0 (1 / Q) 0 1 (1 / Q) 1 _ HK Ez ltac:(lra) ltac:(auto) ltac:(lra) EN) as Hx.
  destruct Hx as [q [E [HR [HSt [H1 [H2 H3]]]]]].
  exists q. split.
  { rewrite <- E. replace (1 / Q * K) with (K / Q) by (field; lra). f_equal; ring. }
  split; [exact HR|]. split; [exact HSt|]. split; [|split].
  - replace C0 with (RtoC (0 / 1)); auto. apply C_eq; simpl; field.
  - replace C0 with (RtoC (0 / 1)); auto. apply C_eq; simpl; field.
  - replace C1 with ((cc (0 - 0) (1 / Q)) / (cc (1 - 1) (1 / Q)))%C; auto.
    apply C_eq; simpl; unfold Cnorm2; simpl; field; lra.
Qed.

Lemma norm2_quot X Y : Y <> C0 -> Cnorm2 (X / Y)%C = Cnorm2 X / Cnorm2 Y.
Proof.
  intros HY. rewrite <- !Cmod_sqr. rewrite Cmod_div by auto. assert (0 < Cmod Y) by (apply Cmod_pos; auto). field. lra.
Qed.

Lemma zoe_lowshelf_lemma g : exists q, zoe_lowshelf fc fs g = Ok q /\ at_rest q /\ bq_stability q = true /\
  response q at_dc (RtoC (pow10 (Rabs g / 20))) /\ response q at_nyquist C1.
Proof.
  unfold zoe_lowshelf. start HK. pose proof (pow10_pos (g / 20)) as HV. set (V := pow10 (g / 20)) in *.
  rewrite rsqrt_ok by lra. cbn [bind]. pose proof sqrt2_pos as H2p.
  assert (H2V : 0 < sqrt (2 * V)) by (apply sqrt_lt_R0; lra).
  assert (0 < sqrt 2 * K) by nra. assert (0 < sqrt (2 * V) * K) by nra. assert (HKK : 0 < K * K) by nra.
  assert (0 < V * (K * K)) by nra.
  destruct (Rle_dec 0 g) as [Hg|Hg].
  - rewrite rdiv_ok by lra. cbn [bind].
    assert (EN : 1 / (1 + sqrt 2 * K + K * K) = 1 / (1 + sqrt 2 * K + 1 * (K * K))) by (f_equal; ring).
    zmatch (zform fc fs K 1 (sqrt (2 * V)) V 1 (sqrt 2) 1 _ HK Ez ltac:(lra) ltac:(auto) ltac:(lra) EN).
    rewrite Rabs_pos_eq by auto. fold V. split.
    + replace V with (V / 1) by field; auto.
    + replace C1 with (RtoC (1 / 1)); auto. apply C_eq; simpl; field.
  - rewrite rdiv_ok by lra. cbn [bind].
    assert (EN : 1 / (1 + sqrt (2 * V) * K + V * K * K) = 1 / (1 + sqrt (2 * V) * K + V * (K * K))) by (f_equal; ring).
    zmatch (zform fc fs K 1 (sqrt 2) 1 1 (sqrt (2 * V)) V _ HK Ez ltac:(lra) ltac:(auto) ltac:(lra) EN).
    rewrite Rabs_left by lra. split.
    + replace (pow10 (- g / 20)) with (1 / V); auto.
      unfold V, pow10. replace (- g / 20) with (- (g / 20)) by field. rewrite Rpower_Ropp. field.
      apply Rgt_not_eq, exp_pos.
    + replace C1 with (RtoC (1 / 1)); auto. apply C_eq; simpl; field.
Qed.

Lemma zoe_lowshelf_boost g : 0 <= g -> exists q h, zoe_lowshelf fc fs g = Ok q /\
  response q (at_freq fc fs) h /\ Cnorm2 h = (1 + pow10 (g / 20) * pow10 (g / 20)) / 2.
Proof.
  intros Hg'. unfold zoe_lowshelf. start HK. pose proof (pow10_pos (g / 20)) as HV. set (V := pow10 (g / 20)) in *.
  rewrite rsqrt_ok by lra. cbn [bind]. pose proof sqrt2_pos as H2p.
  assert (H2V : 0 < sqrt (2 * V)) by (apply sqrt_lt_R0; lra).
  assert (0 < sqrt 2 * K) by nra. assert (0 < sqrt (2 * V) * K) by nra. assert (HKK : 0 < K * K) by nra.
  destruct (Rle_dec 0 g) as [Hg|Hg]; [|lra].
  rewrite rdiv_ok by lra. cbn [bind].
  assert (EN : 1 / (1 + sqrt 2 * K + K * K) = 1 / (1 + sqrt 2 * K + 1 * (K * K))) by (f_equal; ring).
  destruct (zform fc fs K 1 (sqrt (2 * V)) V 1 (sqrt 2) 1 _ HK Ez ltac:(lra) ltac:(auto) ltac:(lra) EN) as [q [E [HR [HSt [H1 [H2 H3]]]]]].
  exists q. eexists. split; [rewrite <- E; f_equal; ring|]. split; [exact H3|].
  rewrite norm2_quot by (intros HE; injection HE; intros; lra). unfold Cnorm2; simpl.
  rewrite !sqrt_sqrt by lra. replace ((1 - 1) * (1 - 1) + 2) with 2 by ring. field.
Qed.

Lemma zoe_highshelf_boost g : 0 <= g -> exists q, zoe_highshelf fc fs g = Ok q /\ at_rest q /\ bq_stability q = true /\
  response q at_dc C1 /\ response q at_nyquist (RtoC (pow10 (g / 20))) /\
  exists h, response q (at_freq fc fs) h /\ Cnorm2 h = (1 + pow10 (g / 20) * pow10 (g / 20)) / 2.
Proof.
  intros Hg'. unfold zoe_highshelf. start HK. pose proof (pow10_pos (g / 20)) as HV. set (V := pow10 (g / 20)) in *.
  rewrite rsqrt_ok by lra. cbn [bind]. pose proof sqrt2_pos as H2p.
  assert (H2V : 0 < sqrt (2 * V)) by (apply sqrt_lt_R0; lra).
  assert (0 < sqrt 2 * K) by nra. assert (0 < sqrt (2 * V) * K) by nra. assert (HKK : 0 < K * K) by nra.
  destruct (Rle_dec 0 g) as [Hg|Hg]; [|lra].
  rewrite rdiv_ok by lra. cbn [bind].
  assert (EN : 1 / (1 + sqrt 2 * K + K * K) = 1 / (1 + sqrt 2 * K + 1 * (K * K))) by (f_equal; ring).
  zmatch (zform fc fs K V (sqrt (2 * V)) 1 1 (sqrt 2) 1 _ HK Ez ltac:(lra) ltac:(auto) ltac:(lra) EN).
  split; [|split].
  - replace C1 with (RtoC (1 / 1)); auto. apply C_eq; simpl; field.
  - replace V with (V / 1) by field; auto.
  - eexists. split; [exact RespC|].
    rewrite norm2_quot by (intros HE; injection HE; intros; lra). unfold Cnorm2; simpl.
    rewrite !sqrt_sqrt by lra. replace ((1 - 1) * (1 - 1) + 2) with 2 by ring. field.
Qed.

(** The cut branch: what the swapped argument list really produces. *)
Lemma zoe_highshelf_cut g : g < 0 -> exists K q, zoe_K fc fs = Ok K /\ 0 < K /\
  let V := pow10 (g / 20) in
  zoe_highshelf fc fs g = Ok q /\ at_rest q /\ bq_stability q = true /\
  response q at_dc (RtoC ((5 * (K * K) - sqrt (2 * V) * K - 3 * V) / (4 * (K * K)))) /\
  response q at_nyquist (RtoC ((V - sqrt (2 * V) * K + K * K) / 4)).
Proof.
  intros Hg'. unfold zoe_highshelf. destruct (zoe_K_ok fc fs HF) as [K [EK [HK Ez]]]. exists K. rewrite EK. cbn [bind].
  pose proof (pow10_pos (g / 20)) as HV. set (V := pow10 (g / 20)) in *.
  rewrite rsqrt_ok by lra. cbn [bind]. pose proof sqrt2_pos as H2p.
  assert (H2V : 0 < sqrt (2 * V)) by (apply sqrt_lt_R0; lra).
  assert (0 < sqrt 2 * K) by nra. assert (0 < sqrt (2 * V) * K) by nra. assert (HKK : 0 < K * K) by nra.
  destruct (Rle_dec 0 g) as [Hg|Hg]; [lra|].
  rewrite rdiv_ok by lra. cbn [bind].
  set (n := 1 / (V + sqrt (2 * V) * K + K * K)).
  assert (Hn : 0 < n) by (unfold n; apply Rmult_lt_0_compat; [lra|apply Rinv_0_lt_compat; lra]).
  edestruct (jury ((1 + sqrt 2 * K + K * K) * n) (2 * (K * K - 1) * n) ((1 - sqrt 2 * K + K * K) * n)
     (2 * (K * K - V) * n) (2 * (K * K - V) * n) ((V - sqrt (2 * V) * K + K * K) * n)) as [q [E [HR [HSt Eq]]]]; cycle 4.
  { exists q. split; [reflexivity|]. split; [exact HK|]. split; [exact E|]. split; [exact HR|]. split; [exact HSt|].
    assert (0 < (1 + sqrt 2 * K + K * K) * n) by (apply Rmult_lt_0_compat; lra).
    split.
    - resp Eq HSt mod_dc. unfold at_dc. apply C_eq; simpl; field; lra.
    - resp Eq HSt mod_ny. unfold at_nyquist. apply C_eq; simpl; field; lra. }
  all: nra.
Qed.
End Zoe.

(** [response] is functional. *)
Lemma response_unique q z h h' : response q z h -> response q z h' -> h = h'.
Proof.
  intros [HD E] [_ E']. rewrite E in E'.
  assert (X : ((h - h') * tf_den (a1 q) (a2 q) z = C0)%C).
  { transitivity (h * tf_den (a1 q) (a2 q) z - h' * tf_den (a1 q) (a2 q) z)%C; [ring|]. rewrite E'. ring. }
  apply Cmul_eq0 in X. destruct X as [X|X]; [|contradiction].
  transitivity (h - h' + h')%C; [ring|]. rewrite X. ring.
Qed.

Lemma stable_poles q : bq_stability q = true -> poles_inside q.
Proof. intros H z. exact (proj1 (stability_lemma q) H z). Qed.
