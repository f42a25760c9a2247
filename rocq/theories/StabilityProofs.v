From Coq Require Import Psatz.
From Verif Require Import RealBase RealBaseProofs BaseProofs Cplx CplxProofs SignalSpec BiquadModel BiquadSpec BiquadProofs.
Local Open Scope R_scope.

Lemma stab_true q : bq_stability q = true <-> Rabs (a2 q) < 1 /\ Rabs (a1 q) < 1 + a2 q.
Proof.
  unfold bq_stability. destruct (Rlt_dec (Rabs (a2 q)) 1); [destruct (Rlt_dec (Rabs (a1 q)) (1 + a2 q))|];
    split; intros; try discriminate; tauto.
Qed.

Lemma roots_exist c1 c2 : exists p q : C, Cadd p q = RtoC (- c1) /\ Cmul p q = RtoC c2.
Proof.
  destruct (Rle_dec 0 (c1 * c1 - 4 * c2)) as [D|D].
  - set (s := sqrt (c1 * c1 - 4 * c2)).
    assert (Hs : s * s = c1 * c1 - 4 * c2) by (apply sqrt_sqrt; exact D).
    exists (RtoC ((- c1 + s) / 2)), (RtoC ((- c1 - s) / 2)).
    split; apply C_eq; simpl; nra.
  - set (s := sqrt (- (c1 * c1 - 4 * c2))).
    assert (Hs : s * s = - (c1 * c1 - 4 * c2)) by (apply sqrt_sqrt; lra).
    exists (- c1 / 2, s / 2), (- c1 / 2, - s / 2).
    split; apply C_eq; simpl; nra.
Qed.

Lemma root_of_factor c1 c2 p q z : Cadd p q = RtoC (- c1) -> Cmul p q = RtoC c2 ->
  (z * z + RtoC c1 * z + RtoC c2)%C = ((z - p) * (z - q))%C.
Proof.
  intros H1 H2. rewrite <- H2.
  replace (RtoC c1) with (- (p + q))%C; [ring|]. rewrite H1. apply C_eq; simpl; ring.
Qed.

Lemma root_p c1 c2 p q : Cadd p q = RtoC (- c1) -> Cmul p q = RtoC c2 -> is_root c1 c2 p /\ is_root c1 c2 q.
Proof. intros H1 H2. unfold is_root. rewrite !(root_of_factor c1 c2 p q) by auto. split; ring. Qed.

Lemma stable_roots c1 c2 z : Rabs c2 < 1 -> Rabs c1 < 1 + c2 -> is_root c1 c2 z -> Cmod z < 1.
Proof.
  intros H2 H1 Hr. apply Rabs_def2 in H1. apply Rabs_def2 in H2.
  apply Cmod_lt_1. destruct z as [x y]. unfold Cnorm2; simpl.
  unfold is_root in Hr.
  pose proof (f_equal Re Hr) as E1. pose proof (f_equal Im Hr) as E2. simpl in E1, E2. clear Hr.
  destruct (Req_dec y 0) as [->|Hy].
  - assert (E : x * x + c1 * x + c2 = 0) by lra. clear E1 E2.
    assert (Hx : -1 < x < 1); [|nra].
    split; apply Rnot_le_lt; intros L.
    + assert ((x + 1) * (x - 1 + c1) >= 0) by nra. nra.
    + assert ((x - 1) * (x + 1 + c1) >= 0) by nra. nra.
  - assert (c1 = - 2 * x) by nra. subst c1. nra.
Qed.

Lemma roots_stable c1 c2 : (forall z, is_root c1 c2 z -> Cmod z < 1) -> Rabs c2 < 1 /\ Rabs c1 < 1 + c2.
Proof.
  intros H. destruct (Rle_dec 0 (c1 * c1 - 4 * c2)) as [D|D].
  - set (s := sqrt (c1 * c1 - 4 * c2)).
    assert (Hs : s * s = c1 * c1 - 4 * c2) by (apply sqrt_sqrt; exact D).
    assert (Hs0 : 0 <= s) by apply sqrt_pos. clearbody s.
    assert (R1 : Cmod (RtoC ((- c1 + s) / 2)) < 1) by (apply H; unfold is_root; apply C_eq; simpl; nra).
    assert (R2 : Cmod (RtoC ((- c1 - s) / 2)) < 1) by (apply H; unfold is_root; apply C_eq; simpl; nra).
    rewrite Cmod_RtoC in R1, R2. apply Rabs_def2 in R1. apply Rabs_def2 in R2.
    set (r1 := (- c1 + s) / 2) in *. set (r2 := (- c1 - s) / 2) in *.
    assert (Es : c1 = - (r1 + r2)) by (unfold r1, r2; lra).
    assert (Ep : c2 = r1 * r2) by (unfold r1, r2; nra).
    rewrite Es, Ep. clearbody r1 r2. split; apply Rabs_def1; nra.
  - set (s := sqrt (- (c1 * c1 - 4 * c2))).
    assert (Hs : s * s = - (c1 * c1 - 4 * c2)) by (apply sqrt_sqrt; lra). clearbody s.
    assert (R1 : Cmod ((- c1 / 2, s / 2) : C) < 1) by (apply H; unfold is_root; apply C_eq; simpl; nra).
    apply Cmod_lt_1 in R1. unfold Cnorm2 in R1; simpl in R1.
    assert (Hc2 : 0 <= c2 < 1) by nra.
    split; apply Rabs_def1; try lra; nra.
Qed.

Lemma stability_lemma q : bq_stability q = true <-> (forall z, is_root (a1 q) (a2 q) z -> Cmod z < 1).
Proof.
  rewrite stab_true. split.
  - intros [H2 H1] z Hz. apply (stable_roots _ _ z H2 H1 Hz).
  - intros H. apply roots_stable; exact H.
Qed.

(** ** Bounded input, bounded output *)
Definition csh (f : nat -> C) (n : nat) : C := match n with O => C0 | S m => f m end.

Lemma geometric_bound (p : C) (f g : nat -> C) V N : Cmod p < 1 ->
  (forall n, (n < N)%nat -> f n = Cadd (g n) (Cmul p (csh f n))) ->
  (forall n, (n < N)%nat -> Cmod (g n) <= V) ->
  forall n, (n < N)%nat -> Cmod (f n) <= V / (1 - Cmod p).
Proof.
  intros Hp Hf Hg n. pose proof (Cmod_nonneg p) as Hp0.
  induction n as [|n IH]; intros Hn.
  - assert (0 <= V) by (eapply Rle_trans; [apply Cmod_nonneg|apply (Hg 0%nat Hn)]).
    rewrite Hf by auto. simpl csh. replace (Cadd (g 0%nat) (Cmul p C0)) with (g 0%nat) by ring.
    eapply Rle_trans; [apply Hg; auto|]. apply (Rmult_le_reg_r (1 - Cmod p)); [lra|].
    unfold Rdiv. rewrite Rmult_assoc, Rinv_l by lra. nra.
  - assert (0 <= V) by (eapply Rle_trans; [apply Cmod_nonneg|apply (Hg _ Hn)]).
    rewrite Hf by auto. simpl csh. eapply Rle_trans; [apply Cmod_triang|]. rewrite Cmod_mul.
    specialize (IH ltac:(lia)). specialize (Hg _ Hn).
    apply Rle_trans with (V + Cmod p * (V / (1 - Cmod p))).
    + apply Rplus_le_compat; [exact Hg|]. apply Rmult_le_compat_l; auto.
    + right. field. lra.
Qed.

Lemma csh_RtoC f n : csh (fun k => RtoC (f k)) n = RtoC (sh f n).
Proof. destruct n; reflexivity. Qed.

Lemma second_order_bound p q (y v : nat -> R) c1 c2 V N :
  Cadd p q = RtoC (- c1) -> Cmul p q = RtoC c2 -> Cmod p < 1 -> Cmod q < 1 ->
  (forall n, (n < N)%nat -> P 1 c1 c2 y n = v n) ->
  (forall n, (n < N)%nat -> Rabs (v n) <= V) ->
  forall n, (n < N)%nat -> Rabs (y n) <= V / (1 - Cmod q) / (1 - Cmod p).
Proof.
  intros Hs Hp Mp Mq Hy Hv n Hn.
  set (u := fun n => Csub (RtoC (y n)) (Cmul p (RtoC (sh y n)))).
  assert (Hu : forall n, (n < N)%nat -> Cmod (u n) <= V / (1 - Cmod q)).
  { apply (geometric_bound q u (fun n => RtoC (v n)) V N Mq).
    - intros k Hk. specialize (Hy k Hk). unfold P in Hy.
      assert (Ey : y k = v k - c1 * sh y k - c2 * sh (sh y) k) by lra.
      unfold u at 1. rewrite Ey.
      assert (Eu : csh u k = Csub (RtoC (sh y k)) (Cmul p (RtoC (sh (sh y) k)))).
      { destruct k as [|k]; [simpl; apply C_eq; simpl; ring|reflexivity]. }
      rewrite Eu.
      replace (RtoC (v k - c1 * sh y k - c2 * sh (sh y) k))
        with (RtoC (v k) + RtoC (- c1) * RtoC (sh y k) - RtoC c2 * RtoC (sh (sh y) k))%C
        by (apply C_eq; simpl; ring).
      rewrite <- Hs, <- Hp. ring.
    - intros k Hk. rewrite Cmod_RtoC. auto. }
  rewrite <- Cmod_RtoC.
  apply (geometric_bound p (fun k => RtoC (y k)) u (V / (1 - Cmod q)) N Mp); auto.
  intros k Hk. rewrite csh_RtoC. unfold u. ring.
Qed.

Lemma P_bound c0 c1 c2 x M N : (forall n, (n < N)%nat -> Rabs (x n) <= M) ->
  forall n, (n < N)%nat -> Rabs (P c0 c1 c2 x n) <= (Rabs c0 + Rabs c1 + Rabs c2) * M.
Proof.
  intros H n Hn. assert (HM : 0 <= M) by (eapply Rle_trans; [apply Rabs_pos|apply (H n Hn)]).
  assert (H1 : forall k, (k < N)%nat -> Rabs (sh x k) <= M).
  { intros [|k] Hk; simpl; [rewrite Rabs_R0; lra|]. apply H; lia. }
  assert (H2 : forall k, (k < N)%nat -> Rabs (sh (sh x) k) <= M).
  { intros [|k] Hk; simpl; [rewrite Rabs_R0; lra|]. apply H1; lia. }
  unfold P. eapply Rle_trans; [apply Rabs_triang|].
  eapply Rle_trans; [apply Rplus_le_compat_r, Rabs_triang|]. rewrite !Rabs_mult.
  pose proof (Rabs_pos c0); pose proof (Rabs_pos c1); pose proof (Rabs_pos c2).
  specialize (H n Hn). specialize (H1 n Hn). specialize (H2 n Hn). nra.
Qed.

Lemma bibo_lemma q : bq_stability q = true -> w0 q = 0 -> w1 q = 0 ->
  exists G, 0 <= G /\ forall M xs, (forall x, In x xs -> Rabs x <= M) ->
    forall y, In y (snd (bq_filter q xs)) -> Rabs y <= G * M.
Proof.
  intros HS H0 H1. rewrite stability_lemma in HS.
  destruct (roots_exist (a1 q) (a2 q)) as [p [r [Es Ep]]].
  destruct (root_p _ _ _ _ Es Ep) as [Rp Rr].
  pose proof (HS p Rp) as Mp. pose proof (HS r Rr) as Mr.
  exists ((Rabs (b0 q) + Rabs (b1 q) + Rabs (b2 q)) / (1 - Cmod r) / (1 - Cmod p)). split.
  { apply Rmult_le_pos; [apply Rmult_le_pos|]; try (left; apply Rinv_0_lt_compat; lra).
    pose proof (Rabs_pos (b0 q)); pose proof (Rabs_pos (b1 q)); pose proof (Rabs_pos (b2 q)); lra. }
  intros M xs HM y Hy.
  destruct (In_nth _ _ 0 Hy) as [k [Hk Ek]].
  pose proof (proj1 (obeys_P _ _ _ _ _ _ _ _) (biquad_obeys q xs H0 H1)) as [LX EX].
  rewrite LX in Hk.
  assert (B : Rabs (seqof (snd (bq_filter q xs)) k) <=
     ((Rabs (b0 q) + Rabs (b1 q) + Rabs (b2 q)) * M) / (1 - Cmod r) / (1 - Cmod p)).
  { apply (second_order_bound p r _ _ _ _ _ (length xs) Es Ep Mp Mr EX); auto.
    apply P_bound. intros n Hn. apply HM. apply nth_In; auto. }
  unfold seqof in B. rewrite Ek in B. eapply Rle_trans; [exact B|]. right; field.
  pose proof (Cmod_nonneg p); pose proof (Cmod_nonneg r); lra.
Qed.
