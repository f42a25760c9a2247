From Coq Require Import Psatz Nsatz.
From Verif Require Import RealBase RealBaseProofs BaseProofs Cplx CplxProofs BiquadModel BiquadSpec BiquadProofs StabilityProofs CascadeProofs DesignModel DesignSpec.
Local Open Scope R_scope.

(** ** Jury conditions on unnormalised coefficients *)
Lemma jury c0 c1 c2 d0 d1 d2 : 0 < c0 -> - c0 < c2 < c0 -> 0 < c0 + c1 + c2 -> 0 < c0 - c1 + c2 ->
  exists q, bq_coeffs c0 c1 c2 d0 d1 d2 = Ok q /\ at_rest q /\ bq_stability q = true /\
    q = mkBq (d2 / c0) (d1 / c0) (d0 / c0) (c2 / c0) (c1 / c0) 1 0 0.
Proof.
  intros H0 H2 Hp Hm. rewrite bq_coeffs_ok by lra. eexists; split; [reflexivity|].
  split; [split; reflexivity|]. split; [|reflexivity]. apply stab_true; cbn [a1 a2].
  assert (Hi : 0 < / c0) by (apply Rinv_0_lt_compat; auto).
  assert (E1 : forall t, t < c0 -> t / c0 < 1).
  { intros t Ht. unfold Rdiv. replace 1 with (c0 * / c0) by (field; lra). apply Rmult_lt_compat_r; auto. }
  split; apply Rabs_def1.
  - apply E1; lra.
  - apply Ropp_lt_cancel. rewrite Ropp_involutive. replace (- (c2 / c0)) with ((- c2) / c0) by (field; lra). apply E1; lra.
  - apply Rminus_gt_0_lt. replace (1 + c2 / c0 - c1 / c0) with ((c0 - c1 + c2) * / c0) by (field; lra). apply Rmult_lt_0_compat; auto.
  - apply Rminus_gt_0_lt. replace (c1 / c0 - - (1 + c2 / c0)) with ((c0 + c1 + c2) * / c0) by (field; lra). apply Rmult_lt_0_compat; auto.
Qed.

(** A stable section has a finite response on the unit circle. *)
Lemma stable_den q z : bq_stability q = true -> Cmod z = 1 -> tf_den (a1 q) (a2 q) z <> C0.
Proof.
  intros HS HM E. rewrite stability_lemma in HS. assert (Cmod z < 1); [|lra]. apply HS. exact E.
Qed.
Lemma Rabs_left1_m1 : Rabs (-1) = 1.
Proof. rewrite Rabs_left by lra. ring. Qed.
Lemma mod_dc : Cmod at_dc = 1. Proof. apply Cmod_1. Qed.
Lemma mod_ny : Cmod at_nyquist = 1.
Proof. unfold at_nyquist. rewrite Cmod_RtoC. apply Rabs_left1_m1. Qed.
Lemma mod_freq f fs : Cmod (at_freq f fs) = 1. Proof. apply Cmod_exp. Qed.

(** Response from unnormalised coefficients. *)
Lemma response_coeffs c0 c1 c2 d0 d1 d2 q z h : c0 <> 0 ->
  q = mkBq (d2 / c0) (d1 / c0) (d0 / c0) (c2 / c0) (c1 / c0) 1 0 0 ->
  tf_den (a1 q) (a2 q) z <> C0 ->
  (RtoC d0 * z * z + RtoC d1 * z + RtoC d2 = h * (RtoC c0 * z * z + RtoC c1 * z + RtoC c2))%C ->
  response q z h.
Proof.
  intros H0 Eq Hd E. split; [exact Hd|]. subst q. cbn [a1 a2 b0 b1 b2] in *. unfold tf_num, tf_den in *.
  assert (HC : RtoC c0 <> C0) by (apply RtoC_neq0; auto).
  assert (D : forall t, RtoC (t / c0) = (RtoC t / RtoC c0)%C).
  { intros t. replace t with (t / c0 * c0) at 2 by (field; auto). rewrite RtoC_mul. field. auto. }
  rewrite !D.
  transitivity ((RtoC d0 * z * z + RtoC d1 * z + RtoC d2) / RtoC c0)%C; [field; auto|].
  rewrite E. field; auto.
Qed.

(** ** Trigonometry of the design point *)
Lemma omega_range fc fs : valid_freq fc fs -> 0 < 2 * PI * fc / fs < PI.
Proof.
  intros [H1 H2]. pose proof PI_RGT_0 as HP. split.
  - apply Rmult_lt_0_compat; [nra|apply Rinv_0_lt_compat; lra].
  - apply (Rmult_lt_reg_r fs); [lra|]. unfold Rdiv. rewrite Rmult_assoc, Rinv_l by lra. nra.
Qed.
Lemma cos_range w : 0 < w < PI -> -1 < cos w < 1.
Proof.
  intros [H1 H2]. split.
  - rewrite <- cos_PI. apply cos_decreasing_1; lra.
  - rewrite <- cos_0. apply cos_decreasing_1; lra.
Qed.
Lemma sc2 w : sin w * sin w + cos w * cos w = 1.
Proof. exact (sin2_cos2 w). Qed.

Ltac cring := apply C_eq; simpl; ring.

(** The algebra used at z = exp(i w): products of cosines and sines. *)
Lemma unit_sq w : (Cexp w * Cexp w + C1 = RtoC (2 * cos w) * Cexp w)%C.
Proof. pose proof (sc2 w). apply C_eq; simpl; nra. Qed.
Lemma unit_sq' w : (Cexp w * Cexp w - C1 = RtoC (2 * sin w) * Ci * Cexp w)%C.
Proof. pose proof (sc2 w). apply C_eq; simpl; nra. Qed.

Section RBJ.
Variables fc fs Q : R.
Hypothesis HF : valid_freq fc fs.
Hypothesis HQ : 0 < Q.
Let w := 2 * PI * fc / fs.
Let s := sin w.
Let c := cos w.
Let alpha := s / (2 * Q).

Lemma fs_neq : fs <> 0. Proof. destruct HF; lra. Qed.
Lemma Hs : 0 < s.
Proof. unfold s. pose proof (omega_range fc fs HF). fold w in H. apply sin_gt_0; lra. Qed.
Lemma Hc : -1 < c < 1.
Proof. unfold c. apply cos_range. apply (omega_range fc fs HF). Qed.
Lemma Ha : 0 < alpha.
Proof. unfold alpha. pose proof Hs. apply Rmult_lt_0_compat; [auto|apply Rinv_0_lt_compat; lra]. Qed.
Lemma Haq : alpha * Q = s / 2.
Proof. unfold alpha. field. lra. Qed.

Lemma rbj_start (f : R -> R -> R -> res biquad) :
  bind (rdiv (2 * PI * fc) fs) (fun omega => bind (rdiv (sin omega) (2 * Q)) (fun al => f (sin omega) (cos omega) al))
  = f s c alpha.
Proof. rewrite rdiv_ok by apply fs_neq. cbn [bind]. rewrite rdiv_ok by lra. reflexivity. Qed.

Lemma rbj_jury d0 d1 d2 :
  exists q, bq_coeffs (1 + alpha) (- (2) * c) (1 - alpha) d0 d1 d2 = Ok q /\ at_rest q /\ bq_stability q = true /\
    q = mkBq (d2 / (1 + alpha)) (d1 / (1 + alpha)) (d0 / (1 + alpha)) ((1 - alpha) / (1 + alpha)) (- (2) * c / (1 + alpha)) 1 0 0.
Proof. pose proof Ha; pose proof Hc. apply jury; lra. Qed.

Ltac go d0 d1 d2 :=
  destruct (rbj_jury d0 d1 d2) as [q [E [HR [HSt Eq]]]];
  exists q; split; [exact E|]; split; [exact HR|]; split; [exact HSt|];
  pose proof Ha; pose proof Hs; pose proof Haq; pose proof (sc2 w) as SC; fold s in SC; fold c in SC.
Ltac resp Eq HSt M :=
  eapply response_coeffs; [|exact Eq|exact (stable_den _ _ HSt M)|]; [apply Rgt_not_eq; lra|].

Lemma den_at_w : (RtoC (1 + alpha) * Cexp w * Cexp w + RtoC (- (2) * c) * Cexp w + RtoC (1 - alpha)
   = RtoC (alpha * (2 * s)) * Ci * Cexp w)%C.
Proof.
  transitivity ((Cexp w * Cexp w + C1) - RtoC (2 * c) * Cexp w + RtoC alpha * (Cexp w * Cexp w - C1))%C.
  - apply C_eq; simpl; ring.
  - rewrite unit_sq, unit_sq'. fold c s. apply C_eq; simpl; ring.
Qed.

Lemma rbj_lowpass_lemma : exists q, rbj_lowpass fc fs Q = Ok q /\ at_rest q /\ bq_stability q = true /\
  response q at_dc C1 /\ response q at_nyquist C0 /\ response q (at_freq fc fs) (Cmul (RtoC (- Q)) Ci).
Proof.
  unfold rbj_lowpass.
  rewrite (rbj_start (fun s c al => bq_coeffs (1 + al) (- (2) * c) (1 - al) ((1 - c) / 2) (1 - c) ((1 - c) / 2))).
  go ((1 - c) / 2) (1 - c) ((1 - c) / 2).
  split; [|split].
  - resp Eq HSt mod_dc. apply C_eq; simpl; field.
  - resp Eq HSt mod_ny. apply C_eq; simpl; field.
  - resp Eq HSt (mod_freq fc fs). unfold at_freq. fold w. rewrite den_at_w.
    transitivity (RtoC ((1 - c) / 2) * ((Cexp w * Cexp w + C1) + RtoC 2 * Cexp w))%C; [apply C_eq; simpl; field|].
    rewrite unit_sq. fold c.
    transitivity (RtoC (s * s) * Cexp w)%C; [replace (s * s) with (1 - c * c) by lra; apply C_eq; simpl; field|].
    transitivity (RtoC (alpha * Q * (2 * s)) * Cexp w)%C; [rewrite H1; apply C_eq; simpl; field|]. apply C_eq; simpl; ring.
Qed.

Lemma rbj_highpass_lemma : exists q, rbj_highpass fc fs Q = Ok q /\ at_rest q /\ bq_stability q = true /\
  response q at_dc C0 /\ response q at_nyquist C1 /\ response q (at_freq fc fs) (Cmul (RtoC Q) Ci).
Proof.
  unfold rbj_highpass.
  rewrite (rbj_start (fun s c al => bq_coeffs (1 + al) (- (2) * c) (1 - al) ((1 + c) / 2) (- (1 + c)) ((1 + c) / 2))).
  go ((1 + c) / 2) (- (1 + c)) ((1 + c) / 2).
  split; [|split].
  - resp Eq HSt mod_dc. apply C_eq; simpl; field.
  - resp Eq HSt mod_ny. apply C_eq; simpl; field.
  - resp Eq HSt (mod_freq fc fs). unfold at_freq. fold w. rewrite den_at_w.
    transitivity (RtoC ((1 + c) / 2) * ((Cexp w * Cexp w + C1) - RtoC 2 * Cexp w))%C; [apply C_eq; simpl; field|].
    rewrite unit_sq. fold c.
    transitivity (RtoC (- (s * s)) * Cexp w)%C; [replace (s * s) with (1 - c * c) by lra; apply C_eq; simpl; field|].
    transitivity (RtoC (- (alpha * Q * (2 * s))) * Cexp w)%C; [rewrite H1; apply C_eq; simpl; field|]. apply C_eq; simpl; ring.
Qed.

Lemma rbj_bandpass_lemma : exists q, rbj_bandpass fc fs Q = Ok q /\ at_rest q /\ bq_stability q = true /\
  response q at_dc C0 /\ response q at_nyquist C0 /\ response q (at_freq fc fs) (RtoC Q).
Proof.
  unfold rbj_bandpass.
  rewrite (rbj_start (fun s c al => bq_coeffs (1 + al) (- (2) * c) (1 - al) (Q * al) 0 (- Q * al))).
  go (Q * alpha) 0 (- Q * alpha).
  split; [|split].
  - resp Eq HSt mod_dc. apply C_eq; simpl; ring.
  - resp Eq HSt mod_ny. apply C_eq; simpl; ring.
  - resp Eq HSt (mod_freq fc fs). unfold at_freq. fold w. rewrite den_at_w.
    transitivity (RtoC (Q * alpha) * (Cexp w * Cexp w - C1))%C; [apply C_eq; simpl; ring|].
    rewrite unit_sq'. fold s. apply C_eq; simpl; ring.
Qed.

(** On the unit circle the all-pass numerator is z^2 times the conjugate denominator. *)
Lemma allpass_mod A0 A1 A2 z : Cmod z = 1 ->
  Cmod (RtoC A2 * z * z + RtoC A1 * z + RtoC A0)%C = Cmod (RtoC A0 * z * z + RtoC A1 * z + RtoC A2)%C.
Proof.
  intros HM. assert (HN : Cnorm2 z = 1) by (rewrite <- Cmod_sqr, HM; ring).
  assert (E : (RtoC A2 * z * z + RtoC A1 * z + RtoC A0)%C =
              (z * z * Cconj (RtoC A0 * z * z + RtoC A1 * z + RtoC A2))%C).
  { destruct z as [x y]. unfold Cnorm2 in HN; simpl in HN. assert (HY : y * y = 1 - x * x) by lra.
    apply C_eq; simpl; nsatz. }
  rewrite E, !Cmod_mul, HM, Cmod_conj. ring.
Qed.

Lemma rbj_allpass_lemma : exists q, rbj_allpass fc fs Q = Ok q /\ at_rest q /\ bq_stability q = true /\
  response q (at_freq fc fs) (RtoC (-1)) /\
  forall z, Cmod z = 1 -> exists h, response q z h /\ Cmod h = 1.
Proof.
  unfold rbj_allpass.
  rewrite (rbj_start (fun s c al => bq_coeffs (1 + al) (- (2) * c) (1 - al) (1 - al) (- (2) * c) (1 + al))).
  go (1 - alpha) (- (2) * c) (1 + alpha).
  split.
  - resp Eq HSt (mod_freq fc fs). unfold at_freq. fold w. rewrite den_at_w.
    transitivity ((Cexp w * Cexp w + C1) - RtoC (2 * c) * Cexp w - RtoC alpha * (Cexp w * Cexp w - C1))%C;
      [apply C_eq; simpl; ring|].
    rewrite unit_sq, unit_sq'. fold c s. apply C_eq; simpl; ring.
  - intros z Hz. pose proof (stable_den q z HSt Hz) as HD.
    exists (tf_num (b0 q) (b1 q) (b2 q) z / tf_den (a1 q) (a2 q) z)%C. split.
    + split; [exact HD|]. field. exact HD.
    + rewrite Cmod_div by exact HD. rewrite Eq at 1 2 3. cbn [b0 b1 b2].
      unfold tf_num. rewrite allpass_mod by exact Hz.
      assert (HM : 0 < Cmod (tf_den (a1 q) (a2 q) z)) by (apply Cmod_pos; exact HD).
      assert (ED : (RtoC ((1 + alpha) / (1 + alpha)) * z * z + RtoC (- (2) * c / (1 + alpha)) * z + RtoC ((1 - alpha) / (1 + alpha)))%C = tf_den (a1 q) (a2 q) z).
      { rewrite Eq. cbn [a1 a2]. unfold tf_den. replace ((1 + alpha) / (1 + alpha)) with 1 by (field; lra).
        apply C_eq; simpl; ring. }
      rewrite ED. field. lra.
Qed.
End RBJ.
