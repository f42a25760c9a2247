(** Property theorems C16, C17: RBJ and Zoelzer designs. *)
From Coq Require Import Psatz.
From Verif Require Import RealBase RealBaseProofs Cplx CplxProofs BiquadModel BiquadSpec StabilityProofs.
From Verif Require Import DesignModel DesignSpec DesignProofs DesignProofs2.
Local Open Scope R_scope.

Ltac upgrade H := destruct H as [q [? [? [? ?]]]]; exists q;
  split; [assumption|split; [assumption|split; [assumption|split; [apply stable_poles; assumption|assumption]]]].

Theorem C16_rbj_lowpass : forall fc fs Q, valid_freq fc fs -> 0 < Q ->
  exists q, rbj_lowpass fc fs Q = Ok q /\ at_rest q /\ bq_stability q = true /\ poles_inside q /\
  response q at_dc C1 /\ response q at_nyquist C0 /\ response q (at_freq fc fs) (Cmul (RtoC (- Q)) Ci).
Proof. intros fc fs Q HF HQ. upgrade (rbj_lowpass_lemma fc fs Q HF HQ). Qed.

Theorem C16_rbj_highpass : forall fc fs Q, valid_freq fc fs -> 0 < Q ->
  exists q, rbj_highpass fc fs Q = Ok q /\ at_rest q /\ bq_stability q = true /\ poles_inside q /\
  response q at_dc C0 /\ response q at_nyquist C1 /\ response q (at_freq fc fs) (Cmul (RtoC Q) Ci).
Proof. intros fc fs Q HF HQ. upgrade (rbj_highpass_lemma fc fs Q HF HQ). Qed.

Theorem C16_rbj_bandpass : forall fc fs Q, valid_freq fc fs -> 0 < Q ->
  exists q, rbj_bandpass fc fs Q = Ok q /\ at_rest q /\ bq_stability q = true /\ poles_inside q /\
  response q at_dc C0 /\ response q at_nyquist C0 /\ response q (at_freq fc fs) (RtoC Q).
Proof. intros fc fs Q HF HQ. upgrade (rbj_bandpass_lemma fc fs Q HF HQ). Qed.

(** All-pass: unit magnitude everywhere on the unit circle, phase reversal at fc. *)
Theorem C16_rbj_allpass : forall fc fs Q, valid_freq fc fs -> 0 < Q ->
  exists q, rbj_allpass fc fs Q = Ok q /\ at_rest q /\ bq_stability q = true /\ poles_inside q /\
  response q (at_freq fc fs) (RtoC (-1)) /\
  forall z, Cmod z = 1 -> exists h, response q z h /\ Cmod h = 1.
Proof. intros fc fs Q HF HQ. upgrade (rbj_allpass_lemma fc fs Q HF HQ). Qed.

(** Shelves: the requested gain on the shelf side, 1 on the other, half of it (in dB) at fc. *)
Theorem C16_rbj_lowshelf : forall fc fs Q gain_db, valid_freq fc fs -> 0 < Q ->
  exists q, rbj_lowshelf fc fs Q gain_db = Ok q /\ at_rest q /\ bq_stability q = true /\ poles_inside q /\
  response q at_dc (RtoC (Rpower 10 (gain_db / 20))) /\ response q at_nyquist C1 /\
  exists h, response q (at_freq fc fs) h /\ Cnorm2 h = Rpower 10 (gain_db / 20).
Proof. intros fc fs Q g HF HQ. upgrade (rbj_lowshelf_lemma fc fs Q g HF HQ). Qed.

Theorem C16_rbj_highshelf : forall fc fs Q gain_db, valid_freq fc fs -> 0 < Q ->
  exists q, rbj_highshelf fc fs Q gain_db = Ok q /\ at_rest q /\ bq_stability q = true /\ poles_inside q /\
  response q at_dc C1 /\ response q at_nyquist (RtoC (Rpower 10 (gain_db / 20))) /\
  exists h, response q (at_freq fc fs) h /\ Cnorm2 h = Rpower 10 (gain_db / 20).
Proof. intros fc fs Q g HF HQ. upgrade (rbj_highshelf_lemma fc fs Q g HF HQ). Qed.

Theorem C17_zoelzer_lowpass : forall fc fs Q, valid_freq fc fs -> 0 < Q ->
  exists q, zoe_lowpass fc fs Q = Ok q /\ at_rest q /\ bq_stability q = true /\ poles_inside q /\
  response q at_dc C1 /\ response q at_nyquist C0 /\ response q (at_freq fc fs) (Cmul (RtoC (- Q)) Ci).
Proof. intros fc fs Q HF HQ. upgrade (zoe_lowpass_lemma fc fs HF Q HQ). Qed.

Theorem C17_zoelzer_highpass : forall fc fs Q, valid_freq fc fs -> 0 < Q ->
  exists q, zoe_highpass fc fs Q = Ok q /\ at_rest q /\ bq_stability q = true /\ poles_inside q /\
  response q at_dc C0 /\ response q at_nyquist C1 /\ response q (at_freq fc fs) (Cmul (RtoC Q) Ci).
Proof. intros fc fs Q HF HQ. upgrade (zoe_highpass_lemma fc fs HF Q HQ). Qed.

Theorem C17_zoelzer_bandpass : forall fc fs Q, valid_freq fc fs -> 0 < Q ->
  exists q, zoe_bandpass fc fs Q = Ok q /\ at_rest q /\ bq_stability q = true /\ poles_inside q /\
  response q at_dc C0 /\ response q at_nyquist C0 /\ response q (at_freq fc fs) C1.
Proof. intros fc fs Q HF HQ. upgrade (zoe_bandpass_lemma fc fs HF Q HQ). Qed.

(** Low shelf: what is computed is the boost by |gain_db|, for either sign of the gain. *)
Theorem C17_zoelzer_lowshelf_actual : forall fc fs gain_db, valid_freq fc fs ->
  exists q, zoe_lowshelf fc fs gain_db = Ok q /\ at_rest q /\ bq_stability q = true /\ poles_inside q /\
  response q at_dc (RtoC (Rpower 10 (Rabs gain_db / 20))) /\ response q at_nyquist C1.
Proof. intros fc fs g HF. upgrade (zoe_lowshelf_lemma fc fs HF g). Qed.

(** The documented property, for boosts. *)
Theorem C17_zoelzer_lowshelf_boost_partial : forall fc fs gain_db, valid_freq fc fs -> 0 <= gain_db ->
  exists q, zoe_lowshelf fc fs gain_db = Ok q /\ at_rest q /\ bq_stability q = true /\ poles_inside q /\
  response q at_dc (RtoC (Rpower 10 (gain_db / 20))) /\ response q at_nyquist C1 /\
  exists h, response q (at_freq fc fs) h /\
    Cnorm2 h = (1 + Rpower 10 (gain_db / 20) * Rpower 10 (gain_db / 20)) / 2.
Proof.
  intros fc fs g HF Hg. destruct (zoe_lowshelf_lemma fc fs HF g) as [q [E [HR [HS [H1 H2]]]]].
  destruct (zoe_lowshelf_boost fc fs HF g Hg) as [q' [h [E' [H3 H4]]]]. rewrite E in E'. injection E' as <-.
  rewrite Rabs_pos_eq in H1 by auto. exists q. split; [exact E|]. split; [exact HR|]. split; [exact HS|].
  split; [apply stable_poles, HS|]. split; [exact H1|]. split; [exact H2|]. exists h. split; assumption.
Qed.

(** Every cut is turned into a boost: the documented DC gain is missed for every negative gain. *)
Theorem C17_zoelzer_lowshelf_cut_refuted : forall fc fs gain_db, valid_freq fc fs -> gain_db < 0 ->
  exists q, zoe_lowshelf fc fs gain_db = Ok q /\
    ~ response q at_dc (RtoC (Rpower 10 (gain_db / 20))) /\
    exists h, response q at_dc (RtoC h) /\ 1 < h.
Proof.
  intros fc fs g HF Hg. destruct (zoe_lowshelf_lemma fc fs HF g) as [q [E [HR [HS [H1 H2]]]]].
  rewrite Rabs_left in H1 by auto. exists q. split; [exact E|]. unfold pow10 in *.
  assert (L : Rpower 10 (g / 20) < 1 < Rpower 10 (- g / 20)).
  { split.
    - rewrite <- (Rpower_O 10) by lra. apply Rpower_lt; lra.
    - apply (Rle_lt_trans _ (Rpower 10 0)); [rewrite Rpower_O; lra|]. apply Rpower_lt; lra. }
  split.
  - intros H. pose proof (response_unique _ _ _ _ H H1) as X. injection X. lra.
  - eexists. split; [exact H1|lra].
Qed.

Theorem C17_zoelzer_highshelf_boost_partial : forall fc fs gain_db, valid_freq fc fs -> 0 <= gain_db ->
  exists q, zoe_highshelf fc fs gain_db = Ok q /\ at_rest q /\ bq_stability q = true /\ poles_inside q /\
  response q at_dc C1 /\ response q at_nyquist (RtoC (Rpower 10 (gain_db / 20))) /\
  exists h, response q (at_freq fc fs) h /\
    Cnorm2 h = (1 + Rpower 10 (gain_db / 20) * Rpower 10 (gain_db / 20)) / 2.
Proof. intros fc fs g HF Hg. upgrade (zoe_highshelf_boost fc fs HF g Hg). Qed.

(** The high-shelf cut passes its coefficients in the wrong order: exact gains obtained. *)
Theorem C17_zoelzer_highshelf_cut_actual : forall fc fs gain_db, valid_freq fc fs -> gain_db < 0 ->
  let K := tan (PI * fc / fs) in let V := Rpower 10 (gain_db / 20) in
  exists q, 0 < K /\ zoe_highshelf fc fs gain_db = Ok q /\ at_rest q /\ bq_stability q = true /\
  response q at_dc (RtoC ((5 * (K * K) - sqrt (2 * V) * K - 3 * V) / (4 * (K * K)))) /\
  response q at_nyquist (RtoC ((V - sqrt (2 * V) * K + K * K) / 4)).
Proof.
  intros fc fs g HF Hg K V. destruct (zoe_highshelf_cut fc fs HF g Hg) as [K' [q [E H]]]. assert (EK : K' = K).
  { unfold zoe_K in E. rewrite rdiv_ok in E by (destruct HF; lra). cbn [bind] in E. unfold rtan in E. destruct (Req_EM_T _ 0); [discriminate E|]. injection E as <-. reflexivity. }
  rewrite EK in H. exists q. exact H.
Qed.

(** At 20 dB of cut, a quarter of the sample rate, the low end is not passed unchanged. *)
Theorem C17_zoelzer_highshelf_cut_refuted : exists fc fs gain_db q,
  valid_freq fc fs /\ gain_db < 0 /\ zoe_highshelf fc fs gain_db = Ok q /\
  ~ response q at_dc C1 /\ ~ response q at_nyquist (RtoC (Rpower 10 (gain_db / 20))).
Proof.
  assert (HF : valid_freq 1 4) by (split; lra).
  destruct (zoe_highshelf_cut 1 4 HF (-20) ltac:(lra)) as [K [q [EK [HK [E [HR [HS [H1 H2]]]]]]]].
  exists 1, 4, (-20), q. split; [exact HF|]. split; [lra|]. split; [exact E|].
  assert (K1 : K = 1).
  { unfold zoe_K in EK. rewrite rdiv_ok in EK by lra. cbn [bind] in EK. replace (PI * 1 / 4) with (PI / 4) in EK by field.
    unfold rtan in EK. destruct (Req_EM_T (cos (PI / 4)) 0) as [X|X]; [discriminate|].
    rewrite tan_PI4 in EK. injection EK. auto. }
  subst K.
  assert (V1 : pow10 (-20 / 20) = 1 / 10).
  { unfold pow10. replace (-20 / 20) with (- (1)) by field. rewrite Rpower_Ropp, Rpower_1 by lra. field. }
  fold (pow10 (-20 / 20)). rewrite V1 in *.
  assert (S1 : sqrt (2 * (1 / 10)) < 1 / 2).
  { apply Rsqr_incrst_0; try lra; [|apply sqrt_pos]. rewrite Rsqr_sqrt by lra. unfold Rsqr. lra. }
  assert (S2 : 0 < sqrt (2 * (1 / 10))) by (apply sqrt_lt_R0; lra).
  split; intros H.
  - pose proof (response_unique _ _ _ _ H H1) as X. injection X. lra.
  - pose proof (response_unique _ _ _ _ H H2) as X. injection X. lra.
Qed.

(** The hypotheses are met, e.g. by 1 kHz at 44.1 kHz. *)
Example design_point_exists : valid_freq 1000 44100 /\ 0 < 7071 / 10000 /\ 0 <= 6 /\ -6 < 0.
Proof. unfold valid_freq. lra. Qed.
Print Assumptions C16_rbj_lowpass.
Print Assumptions C16_rbj_highpass.
Print Assumptions C16_rbj_bandpass.
Print Assumptions C16_rbj_allpass.
Print Assumptions C16_rbj_lowshelf.
Print Assumptions C16_rbj_highshelf.
Print Assumptions C17_zoelzer_lowpass.
Print Assumptions C17_zoelzer_highpass.
Print Assumptions C17_zoelzer_bandpass.
Print Assumptions C17_zoelzer_lowshelf_actual.
Print Assumptions C17_zoelzer_lowshelf_boost_partial.
Print Assumptions C17_zoelzer_lowshelf_cut_refuted.
Print Assumptions C17_zoelzer_highshelf_boost_partial.
Print Assumptions C17_zoelzer_highshelf_cut_actual.
Print Assumptions C17_zoelzer_highshelf_cut_refuted.
