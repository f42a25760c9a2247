(** Verified interval arithmetic in fixed point, enough to check decimal expansions of numbers built
    from PI, roots, exponentials, logarithms and sums. *)
From Coq Require Import Reals Lra Lia ZArith QArith Qreals Machin Ratan List Bool.
From Verif Require Import ConstModel ConstSpec.
Import ListNotations.
Local Open Scope R_scope.

(** ** Numbers with 160 binary places *)
Definition places : Z := 160.
Definition one : Z := 2 ^ places.
Definition V (z : Z) : R := IZR z / IZR one.
Lemma one_pos : 0 < IZR one. Proof. apply IZR_lt. reflexivity. Qed.
Lemma one_posZ : (0 < one)%Z. Proof. reflexivity. Qed.
Lemma V_le a b : (a <= b)%Z -> V a <= V b.
Proof. intros H. unfold V. apply Rmult_le_compat_r; [apply Rlt_le, Rinv_0_lt_compat, one_pos|apply IZR_le, H]. Qed.
Lemma V_add a b : V (a + b) = V a + V b. Proof. unfold V. rewrite plus_IZR. field. pose proof one_pos. lra. Qed.
Lemma V_opp a : V (- a) = - V a. Proof. unfold V. rewrite opp_IZR. field. pose proof one_pos. lra. Qed.
Lemma V_0 : V 0 = 0. Proof. unfold V. lra. Qed.
Lemma V_one : V one = 1. Proof. unfold V. field. pose proof one_pos. lra. Qed.
Lemma V_scale a k : V (k * a) = IZR k * V a. Proof. unfold V. rewrite mult_IZR. field. pose proof one_pos. lra. Qed.
Lemma V_pos a : (0 <= a)%Z -> 0 <= V a. Proof. intros H. rewrite <- V_0. apply V_le, H. Qed.
Lemma floor_le n d : (0 < d)%Z -> IZR (n / d) <= IZR n / IZR d.
Proof.
  intros H. apply IZR_lt in H as H'. apply Rmult_le_reg_r with (IZR d); [exact H'|]. unfold Rdiv. rewrite Rmult_assoc, Rinv_l by lra. rewrite Rmult_1_r, <- mult_IZR.
  apply IZR_le. pose proof (Z.mul_div_le n d H). lia.
Qed.
Lemma floor_up n d : (0 < d)%Z -> IZR n / IZR d <= IZR (n / d + 1).
Proof.
  intros H. apply IZR_lt in H as H'. apply Rmult_le_reg_r with (IZR d); [exact H'|]. unfold Rdiv. rewrite Rmult_assoc, Rinv_l by lra. rewrite Rmult_1_r, <- mult_IZR.
  apply IZR_le. pose proof (Z.mul_succ_div_gt n d H). lia.
Qed.
Lemma V_div_dn a k : (0 < k)%Z -> V (a / k) <= V a / IZR k.
Proof.
  intros H. pose proof one_pos. apply IZR_lt in H as H'. pose proof (floor_le a k H). unfold V.
  replace (IZR a / IZR one / IZR k) with (IZR a / IZR k / IZR one) by (field; lra). apply Rmult_le_compat_r; [apply Rlt_le, Rinv_0_lt_compat; lra|auto].
Qed.
Lemma V_div_up a k : (0 < k)%Z -> V a / IZR k <= V (a / k + 1).
Proof.
  intros H. pose proof one_pos. apply IZR_lt in H as H'. pose proof (floor_up a k H). unfold V.
  replace (IZR a / IZR one / IZR k) with (IZR a / IZR k / IZR one) by (field; lra). apply Rmult_le_compat_r; [apply Rlt_le, Rinv_0_lt_compat; lra|auto].
Qed.
Definition mul_dn (a b : Z) : Z := Z.shiftr (a * b) places.
Definition mul_up (a b : Z) : Z := (Z.shiftr (a * b) places + 1)%Z.
Lemma V_mul a b : V a * V b = IZR (a * b) / IZR one / IZR one.
Proof. unfold V. rewrite mult_IZR. pose proof one_pos. field. lra. Qed.
Lemma V_mul_dn a b : V (mul_dn a b) <= V a * V b.
Proof.
  unfold mul_dn. rewrite Z.shiftr_div_pow2 by discriminate. fold one. rewrite V_mul. pose proof one_pos. unfold V.
  apply Rmult_le_compat_r; [apply Rlt_le, Rinv_0_lt_compat; lra|apply floor_le, one_posZ].
Qed.
Lemma V_mul_up a b : V a * V b <= V (mul_up a b).
Proof.
  unfold mul_up. rewrite Z.shiftr_div_pow2 by discriminate. fold one. rewrite V_mul. pose proof one_pos. unfold V.
  apply Rmult_le_compat_r; [apply Rlt_le, Rinv_0_lt_compat; lra|apply floor_up, one_posZ].
Qed.
Definition quo (a b : Z) : Z := (Z.shiftl a places / b)%Z.
Lemma V_quo a b : (0 < b)%Z -> V (quo a b) <= IZR a / IZR b <= V (quo a b + 1).
Proof.
  intros H. unfold quo. rewrite Z.shiftl_mul_pow2 by discriminate. fold one. pose proof one_pos. apply IZR_lt in H as H'.
  pose proof (floor_le (a * one) b H) as L. pose proof (floor_up (a * one) b H) as U. rewrite mult_IZR in L, U. unfold V.
  replace (IZR a / IZR b) with (IZR a * IZR one / IZR b / IZR one) by (field; lra).
  split; (apply Rmult_le_compat_r; [apply Rlt_le, Rinv_0_lt_compat; lra|auto]).
Qed.
Lemma V_quo_V a b : (0 < b)%Z -> V (quo a b) <= V a / V b <= V (quo a b + 1).
Proof.
  intros H. pose proof one_pos. apply IZR_lt in H as H'. replace (V a / V b) with (IZR a / IZR b) by (unfold V; field; lra). apply V_quo, H.
Qed.

(** ** Sums of fractions *)
Fixpoint zsum (num den : nat -> Z) (n : nat) : Z := match n with O => quo (num O) (den O) | S k => (zsum num den k + quo (num (S k)) (den (S k)))%Z end.
Lemma zsum_bounds num den g n : (forall k, (0 < den k)%Z /\ g k = IZR (num k) / IZR (den k)) ->
  V (zsum num den n) <= sum_f_R0 g n <= V (zsum num den n + Z.of_nat (S n)).
Proof.
  intros H. induction n as [|n IH]; cbn [zsum sum_f_R0].
  - destruct (H 0%nat) as [D ->]. apply V_quo, D.
  - destruct (H (S n)) as [D ->]. pose proof (V_quo (num (S n)) (den (S n)) D) as Q. rewrite !V_add in *.
    replace (Z.of_nat (S (S n))) with (Z.of_nat (S n) + 1)%Z by lia. rewrite V_add. lra.
Qed.
Definition sign (k : nat) : Z := if Nat.even k then 1 else (-1)%Z.
Lemma sign_R k : IZR (sign k) = (-1) ^ k.
Proof.
  assert (H : forall k, IZR (sign k) = (-1) ^ k /\ IZR (sign (S k)) = (-1) ^ S k).
  { clear k. induction k as [|k [A B]]; [split; unfold sign; cbn; lra|]. split; [exact B|].
    change (sign (S (S k))) with (sign k). rewrite A. cbn [pow]. ring. }
  apply H.
Qed.

(** ** PI *)
Definition odd (k : nat) : Z := (2 * Z.of_nat k + 1)%Z.
Lemma odd_R k : IZR (odd k) = INR (2 * k + 1).
Proof. rewrite INR_IZR_INZ. f_equal. unfold odd. lia. Qed.
Definition machin_num (k : nat) : Z := (sign k * (2 * 7 ^ odd k + 3 ^ odd k))%Z.
Definition machin_den (k : nat) : Z := (odd k * 21 ^ odd k)%Z.
Lemma pow_IZR_odd z k : IZR (z ^ odd k) = IZR z ^ (2 * k + 1).
Proof. rewrite pow_IZR. f_equal. unfold odd. f_equal. lia. Qed.
Lemma machin_R k : (0 < machin_den k)%Z /\ tg_alt PI_2_3_7_tg k = IZR (machin_num k) / IZR (machin_den k).
Proof.
  unfold machin_den, machin_num. split; [apply Z.mul_pos_pos; [unfold odd; lia|apply Z.pow_pos_nonneg; unfold odd; lia]|].
  unfold tg_alt, PI_2_3_7_tg, Ratan_seq. rewrite !mult_IZR, plus_IZR, mult_IZR, sign_R, !pow_IZR_odd, odd_R.
  replace (IZR 21) with (3 * 7) by lra. rewrite Rpow_mult_distr, !pow_inv. field.
  repeat split; try (apply not_0_INR; lia); apply pow_nonzero; lra.
Qed.
Definition slack : Z := 4096.
Definition pi_lo : Z := 4591442807048218921384805199743311128454155022370.
Lemma pi_bounds : V pi_lo <= PI <= V (pi_lo + slack).
Proof.
  destruct (PI_2_3_7_ineq 26) as [L H]. pose proof (zsum_bounds machin_num machin_den _ (S (2 * 26)) machin_R) as A. pose proof (zsum_bounds machin_num machin_den _ (2 * 26) machin_R) as B.
  assert (C : V pi_lo <= V (4 * zsum machin_num machin_den (S (2 * 26)))) by (apply V_le; vm_compute; discriminate).
  assert (D : V (4 * (zsum machin_num machin_den (2 * 26) + Z.of_nat (S (2 * 26)))) <= V (pi_lo + slack)) by (apply V_le; vm_compute; discriminate).
  rewrite V_scale in C, D. lra.
Qed.

(** ** sin 1 and cos 1 *)
Fixpoint zfact (n : nat) : Z := match n with O => 1 | S k => (Z.of_nat (S k) * zfact k)%Z end.
Lemma zfact_ok n : Z.of_nat (fact n) = zfact n.
Proof. induction n as [|n IH]; [reflexivity|]. change (fact (S n)) with (S n * fact n)%nat. rewrite Nat2Z.inj_mul, IH. reflexivity. Qed.
Lemma zfact_pos n : (0 < zfact n)%Z.
Proof. rewrite <- zfact_ok. pose proof (lt_O_fact n). lia. Qed.
Lemma alt_R k m : (0 < zfact m)%Z /\ (-1) ^ k * (1 ^ m / INR (fact m)) = IZR (sign k) / IZR (zfact m).
Proof. split; [apply zfact_pos|]. rewrite sign_R, <- zfact_ok, <- INR_IZR_INZ, pow1. unfold Rdiv. ring. Qed.
Definition sin_lo : Z := 1229811222063188079455875033478504257159032015123.
Definition cos_lo : Z := 789652704679948512850133577617776009509005111945.
Lemma sin_bounds : V sin_lo <= sin 1 <= V (sin_lo + slack).
Proof.
  destruct (pre_sin_bound 1 10 ltac:(lra) ltac:(lra)) as [L H]. unfold sin_approx in L, H.
  pose proof (zsum_bounds sign (fun k => zfact (2 * k + 1)) _ (2 * 10 + 1) (fun k => alt_R k (2 * k + 1))) as A.
  pose proof (zsum_bounds sign (fun k => zfact (2 * k + 1)) _ (2 * (10 + 1)) (fun k => alt_R k (2 * k + 1))) as B.
  split; [eapply Rle_trans; [|eapply Rle_trans; [exact (proj1 A)|exact L]]|eapply Rle_trans; [exact H|eapply Rle_trans; [exact (proj2 B)|]]]; apply V_le; vm_compute; discriminate.
Qed.
Lemma cos_bounds : V cos_lo <= cos 1 <= V (cos_lo + slack).
Proof.
  destruct (pre_cos_bound 1 10 ltac:(lra) ltac:(lra)) as [L H]. unfold cos_approx in L, H.
  pose proof (zsum_bounds sign (fun k => zfact (2 * k)) _ (2 * 10 + 1) (fun k => alt_R k (2 * k))) as A.
  pose proof (zsum_bounds sign (fun k => zfact (2 * k)) _ (2 * (10 + 1)) (fun k => alt_R k (2 * k))) as B.
  split; [eapply Rle_trans; [|eapply Rle_trans; [exact (proj1 A)|exact L]]|eapply Rle_trans; [exact H|eapply Rle_trans; [exact (proj2 B)|]]]; apply V_le; vm_compute; discriminate.
Qed.

(** ** exp *)
Lemma incr_from_0 (f f' : R -> R) x : (forall y, derivable_pt_lim f y (f' y)) -> (forall y, 0 <= y <= x -> 0 <= f' y) -> 0 <= x -> f 0 <= f x.
Proof.
  intros D P X. destruct (Req_dec x 0) as [->|N]; [lra|].
  destruct (MVT_cor2 f f' 0 x ltac:(lra) (fun c _ => D c)) as [c [E B]]. assert (0 <= f' c * (x - 0)) by (apply Rmult_le_pos; [apply P|]; lra). lra.
Qed.
Definition exp_term (x : R) (k : nat) : R := x ^ k / INR (fact k).
Lemma exp_term_deriv k x : derivable_pt_lim (fun y => exp_term y (S k)) x (exp_term x k).
Proof.
  unfold exp_term. assert (F : INR (fact k) <> 0) by apply INR_fact_neq_0.
  replace (x ^ k / INR (fact k)) with (/ INR (fact (S k)) * (INR (S k) * x ^ k)).
  - replace (fun y => y ^ S k / INR (fact (S k))) with (mult_real_fct (/ INR (fact (S k))) (fun y => y ^ S k)).
    + apply derivable_pt_lim_scal. apply (derivable_pt_lim_pow x (S k)).
    + apply FunctionalExtensionality.functional_extensionality. intros y. unfold mult_real_fct, Rdiv. ring.
  - change (fact (S k)) with (S k * fact k)%nat. rewrite mult_INR. field. split; auto. apply not_0_INR. lia.
Qed.
Definition exp_sum (x : R) (n : nat) : R := sum_f_R0 (exp_term x) n.
Lemma exp_sum_deriv n x : derivable_pt_lim (fun y => exp_sum y (S n)) x (exp_sum x n).
Proof.
  induction n as [|n IH].
  - unfold exp_sum. cbn [sum_f_R0]. replace (exp_term x 0) with (0 + exp_term x 0) by ring.
    apply (derivable_pt_lim_plus (fun y => exp_term y 0) (fun y => exp_term y 1)); [|apply exp_term_deriv].
    apply (derivable_pt_lim_const (1 / INR (fact 0))). 
  - change (exp_sum x (S n)) with (exp_sum x n + exp_term x (S n)).
    apply (derivable_pt_lim_plus (fun y => exp_sum y (S n)) (fun y => exp_term y (S (S n)))); [exact IH|apply exp_term_deriv].
Qed.
Lemma exp_sum_0 n : exp_sum 0 n = 1.
Proof. induction n as [|n IH]; unfold exp_sum; cbn [sum_f_R0]; [unfold exp_term; simpl; field|]. fold (exp_sum 0 n). rewrite IH. unfold exp_term. simpl. unfold Rdiv. ring. Qed.
Lemma exp_lower n x : 0 <= x -> exp_sum x n <= exp x.
Proof.
  revert x. induction n as [|n IH]; intros x X.
  - unfold exp_sum, exp_term. simpl. pose proof (exp_ineq1_le x). lra.
  - pose proof (incr_from_0 (fun y => exp y - exp_sum y (S n)) (fun y => exp y - exp_sum y n) x) as M. cbn beta in M.
    rewrite exp_0, exp_sum_0 in M. assert (0 <= exp x - exp_sum x (S n)); [|lra]. replace 0 with (1 - 1) by ring. apply M.
    + intros y. apply (derivable_pt_lim_minus exp (fun z => exp_sum z (S n))); [apply derivable_pt_lim_exp|apply exp_sum_deriv].
    + intros y Y. specialize (IH y ltac:(lra)). lra.
    + auto.
Qed.
Lemma exp_term_0 k : exp_term 0 (S k) = 0.
Proof. unfold exp_term. cbn [pow]. unfold Rdiv. ring. Qed.
Lemma exp_upper K M n x : 0 <= x <= M -> exp M <= K -> exp x <= exp_sum x n + K * exp_term x (S n).
Proof.
  intros X HK. assert (G : forall m x, 0 <= x <= M -> exp x <= (match m with O => 0 | S k => exp_sum x k end) + K * exp_term x m).
  { clear x X. induction m as [|m IH]; intros x X.
    - unfold exp_term. simpl. assert (exp x <= exp M) by (destruct (Req_dec x M) as [->|]; [lra|left; apply exp_increasing; lra]). lra.
    - pose proof (incr_from_0 (fun y => (exp_sum y m + K * exp_term y (S m)) - exp y) (fun y => ((match m with O => 0 | S k => exp_sum y k end) + K * exp_term y m) - exp y) x) as Q. cbn beta in Q.
      rewrite exp_0, exp_sum_0 in Q. rewrite exp_term_0, Rmult_0_r in Q.
      assert (0 <= exp_sum x m + K * exp_term x (S m) - exp x); [|lra]. replace 0 with (1 + 0 - 1) by ring. apply Q; [| |lra].
      + intros y. apply (derivable_pt_lim_minus (fun z => exp_sum z m + K * exp_term z (S m)) exp); [|apply derivable_pt_lim_exp].
        apply (derivable_pt_lim_plus (fun z => exp_sum z m) (fun z => K * exp_term z (S m))).
        * destruct m; [apply (derivable_pt_lim_const (1 / INR (fact 0)))|apply exp_sum_deriv].
        * apply (derivable_pt_lim_scal (fun z => exp_term z (S m))), exp_term_deriv.
      + intros y Y. specialize (IH y ltac:(lra)). lra. }
  apply (G (S n) x X).
Qed.

Lemma exp_term_S x k : exp_term x (S k) = exp_term x k * x / INR (S k).
Proof. unfold exp_term. change (fact (S k)) with (S k * fact k)%nat. rewrite mult_INR. cbn [pow]. field. split; [apply INR_fact_neq_0|apply not_0_INR; lia]. Qed.
Lemma div_mono a b x k : 0 <= x -> a <= b -> a * x / INR (S k) <= b * x / INR (S k).
Proof. intros X H. assert (0 < INR (S k)) by (apply lt_0_INR; lia). apply Rmult_le_compat_r; [apply Rlt_le, Rinv_0_lt_compat; auto|]. nra. Qed.
Fixpoint z_exp_dn (x : Z) (n : nat) (k term acc : Z) : Z :=
  match n with O => acc | S m => let t := (mul_dn term x / k)%Z in z_exp_dn x m (k + 1) t (acc + t) end.
Fixpoint z_exp_up (x : Z) (n : nat) (k term acc : Z) : Z * Z :=
  match n with O => (acc, term) | S m => let t := (mul_up term x / k + 1)%Z in z_exp_up x m (k + 1) t (acc + t) end.
Lemma z_exp_dn_ok x n : 0 <= V x -> forall k term acc, V term <= exp_term (V x) k -> V acc <= exp_sum (V x) k ->
  V (z_exp_dn x n (Z.of_nat (S k)) term acc) <= exp_sum (V x) (k + n).
Proof.
  intros X. induction n as [|n IH]; intros k term acc T A; cbn [z_exp_dn].
  - rewrite Nat.add_0_r. auto.
  - replace (Z.of_nat (S k) + 1)%Z with (Z.of_nat (S (S k))) by lia. rewrite <- Nat.add_succ_comm. cbn zeta.
    assert (T2 : V (mul_dn term x / Z.of_nat (S k)) <= exp_term (V x) (S k)).
    { eapply Rle_trans; [apply V_div_dn; lia|]. rewrite exp_term_S, <- INR_IZR_INZ. eapply Rle_trans; [|apply div_mono; [auto|apply T]].
      apply Rmult_le_compat_r; [apply Rlt_le, Rinv_0_lt_compat, lt_0_INR; lia|apply V_mul_dn]. }
    apply IH; auto. rewrite V_add. unfold exp_sum in *. cbn [sum_f_R0]. lra.
Qed.
Lemma z_exp_up_ok x n : 0 <= V x -> forall k term acc, exp_term (V x) k <= V term -> exp_sum (V x) k <= V acc ->
  exp_sum (V x) (k + n) <= V (fst (z_exp_up x n (Z.of_nat (S k)) term acc)) /\ exp_term (V x) (k + n) <= V (snd (z_exp_up x n (Z.of_nat (S k)) term acc)).
Proof.
  intros X. induction n as [|n IH]; intros k term acc T A; cbn [z_exp_up].
  - rewrite Nat.add_0_r. auto.
  - replace (Z.of_nat (S k) + 1)%Z with (Z.of_nat (S (S k))) by lia. rewrite <- Nat.add_succ_comm. cbn zeta.
    assert (T2 : exp_term (V x) (S k) <= V (mul_up term x / Z.of_nat (S k) + 1)).
    { eapply Rle_trans; [|apply V_div_up; lia]. rewrite exp_term_S, <- INR_IZR_INZ. eapply Rle_trans; [apply div_mono; [auto|apply T]|].
      apply Rmult_le_compat_r; [apply Rlt_le, Rinv_0_lt_compat, lt_0_INR; lia|apply V_mul_up]. }
    apply IH; auto. rewrite V_add. unfold exp_sum in *. cbn [sum_f_R0]. lra.
Qed.
Definition exp_dn (x : Z) (n : nat) : Z := z_exp_dn x n 1 one one.
Definition exp_up (x : Z) (n : nat) : Z := let p := z_exp_up x (S n) 1 one one in (fst p + 80 * snd p)%Z.
Lemma exp_dn_ok x n : 0 <= V x -> V (exp_dn x n) <= exp (V x).
Proof.
  intros H. eapply Rle_trans; [|apply (exp_lower n); auto]. apply (z_exp_dn_ok x n H 0); rewrite V_one; unfold exp_sum, exp_term; simpl; lra.
Qed.
Lemma exp4 : exp 4 <= 81.
Proof.
  assert (exp 1 <= 3) by apply exp_le_3. replace 4 with (1 + 1 + 1 + 1) by ring. rewrite !exp_plus. pose proof (exp_pos 1).
  assert (exp 1 * exp 1 <= 9) by nra. nra.
Qed.
Lemma exp_up_ok x n : 0 <= V x <= 4 -> exp (V x) <= V (exp_up x n).
Proof.
  intros H. unfold exp_up. cbn zeta. destruct (z_exp_up_ok x (S n) ltac:(lra) 0 one one) as [A B]; [rewrite V_one; unfold exp_term; simpl; lra|rewrite V_one; unfold exp_sum, exp_term; simpl; lra|].
  cbn [plus] in A, B. change (Z.of_nat 1) with 1%Z in A, B. rewrite V_add, V_scale.
  pose proof (exp_upper 81 4 n (V x) H exp4). unfold exp_sum in *. cbn [sum_f_R0] in *. lra.
Qed.

(** ** ln *)
Fixpoint at_sum (w : R) (n : nat) : R := match n with O => 0 | S k => at_sum w k + w ^ (2 * k + 1) / INR (2 * k + 1) end.
Fixpoint ge_sum (w : R) (n : nat) : R := match n with O => 0 | S k => ge_sum w k + w ^ (2 * k) end.
Lemma at_sum_deriv n w : derivable_pt_lim (fun v => at_sum v n) w (ge_sum w n).
Proof.
  induction n as [|n IH]; cbn [at_sum ge_sum]; [apply (derivable_pt_lim_const 0)|].
  apply (derivable_pt_lim_plus (fun v => at_sum v n) (fun v => v ^ (2 * n + 1) / INR (2 * n + 1))); [exact IH|].
  assert (N : INR (2 * n + 1) <> 0) by (apply not_0_INR; lia).
  replace (w ^ (2 * n)) with (/ INR (2 * n + 1) * (INR (2 * n + 1) * w ^ pred (2 * n + 1))) by (replace (pred (2 * n + 1)) with (2 * n)%nat by lia; field; auto).
  replace (fun v => v ^ (2 * n + 1) / INR (2 * n + 1)) with (mult_real_fct (/ INR (2 * n + 1)) (fun v => v ^ (2 * n + 1))).
  - apply derivable_pt_lim_scal. apply derivable_pt_lim_pow.
  - apply FunctionalExtensionality.functional_extensionality. intros y. unfold mult_real_fct, Rdiv. ring.
Qed.
Lemma at_sum_0 n : at_sum 0 n = 0.
Proof. induction n as [|n IH]; cbn [at_sum]; [reflexivity|]. rewrite IH, pow_ne_zero by lia. unfold Rdiv. ring. Qed.
Lemma ge_sum_closed w n : (1 - w * w) * ge_sum w n = 1 - w ^ (2 * n).
Proof. induction n as [|n IH]; cbn [ge_sum]; [simpl; ring|]. rewrite Rmult_plus_distr_l, IH. replace (2 * S n)%nat with (S (S (2 * n))) by lia. cbn [pow]. ring. Qed.
Lemma ln_deriv w : -1 < w < 1 -> derivable_pt_lim (fun v => ln (1 + v) - ln (1 - v)) w (2 / (1 - w * w)).
Proof.
  intros H. assert (A : derivable_pt_lim (fun v => ln (1 + v)) w (/ (1 + w) * (0 + 1))).
  { apply (derivable_pt_lim_comp (fun v => 1 + v) ln); [|apply derivable_pt_lim_ln; lra].
    apply (derivable_pt_lim_plus (fun _ => 1) id); [apply derivable_pt_lim_const|apply derivable_pt_lim_id]. }
  assert (B : derivable_pt_lim (fun v => ln (1 - v)) w (/ (1 - w) * (0 - 1))).
  { apply (derivable_pt_lim_comp (fun v => 1 - v) ln); [|apply derivable_pt_lim_ln; lra].
    apply (derivable_pt_lim_minus (fun _ => 1) id); [apply derivable_pt_lim_const|apply derivable_pt_lim_id]. }
  pose proof (derivable_pt_lim_minus _ _ _ _ _ A B) as C.
  replace (2 / (1 - w * w)) with (/ (1 + w) * (0 + 1) - / (1 - w) * (0 - 1)); [exact C|]. field. repeat split; apply Rgt_not_eq; nra.
Qed.
Lemma grows (f f' : R -> R) x : (forall y, 0 <= y <= x -> derivable_pt_lim f y (f' y)) -> (forall y, 0 <= y <= x -> 0 <= f' y) -> 0 <= x -> f 0 <= f x.
Proof.
  intros D P X. destruct (Req_dec x 0) as [->|N]; [lra|].
  destruct (MVT_cor2 f f' 0 x ltac:(lra) D) as [c [E B]]. assert (0 <= f' c * (x - 0)) by (apply Rmult_le_pos; [apply P|]; lra). lra.
Qed.
Definition ln_ratio (w : R) : R := ln (1 + w) - ln (1 - w).
Lemma ln_ratio_0 : ln_ratio 0 = 0.
Proof. unfold ln_ratio. rewrite Rplus_0_r, Rminus_0_r. ring. Qed.
Lemma pow_sq_nonneg w n : 0 <= w ^ (2 * n).
Proof. rewrite pow_Rsqr. apply pow_le, Rle_0_sqr. Qed.
Lemma ln_ratio_lower n w : 0 <= w < 1 -> 2 * at_sum w n <= ln_ratio w.
Proof.
  intros H. pose proof (grows (fun v => ln_ratio v - 2 * at_sum v n) (fun v => 2 / (1 - v * v) - 2 * ge_sum v n) w) as G. cbn beta in G.
  rewrite ln_ratio_0, at_sum_0 in G. assert (0 - 2 * 0 <= ln_ratio w - 2 * at_sum w n); [apply G|lra]; [| |lra].
  - intros y Y. apply (derivable_pt_lim_minus ln_ratio (fun v => 2 * at_sum v n)); [apply ln_deriv; lra|]. apply (derivable_pt_lim_scal (fun v => at_sum v n)), at_sum_deriv.
  - intros y Y. assert (P : 0 < 1 - y * y) by nra. apply Rmult_le_reg_l with (1 - y * y); auto. pose proof (ge_sum_closed y n). pose proof (pow_sq_nonneg y n).
    replace ((1 - y * y) * (2 / (1 - y * y) - 2 * ge_sum y n)) with (2 - 2 * ((1 - y * y) * ge_sum y n)) by (field; lra). lra.
Qed.
Lemma ln_ratio_upper n w : (0 < n)%nat -> 0 <= w <= 1 / 2 -> ln_ratio w <= 2 * at_sum w n + w ^ (2 * n + 1).
Proof.
  intros N H. pose proof (grows (fun v => 2 * at_sum v n + v ^ (2 * n + 1) - ln_ratio v) (fun v => 2 * ge_sum v n + INR (2 * n + 1) * v ^ pred (2 * n + 1) - 2 / (1 - v * v)) w) as G. cbn beta in G.
  rewrite ln_ratio_0, at_sum_0, pow_ne_zero in G by lia. assert (2 * 0 + 0 - 0 <= 2 * at_sum w n + w ^ (2 * n + 1) - ln_ratio w); [apply G|lra]; [| |lra].
  - intros y Y. apply (derivable_pt_lim_minus (fun v => 2 * at_sum v n + v ^ (2 * n + 1)) ln_ratio); [|apply ln_deriv; lra].
    apply (derivable_pt_lim_plus (fun v => 2 * at_sum v n) (fun v => v ^ (2 * n + 1))); [apply (derivable_pt_lim_scal (fun v => at_sum v n)), at_sum_deriv|apply derivable_pt_lim_pow].
  - intros y Y. assert (P : 3 / 4 <= 1 - y * y) by nra. apply Rmult_le_reg_l with (1 - y * y); [lra|]. pose proof (ge_sum_closed y n). replace (pred (2 * n + 1)) with (2 * n)%nat by lia. pose proof (pow_sq_nonneg y n).
    replace ((1 - y * y) * (2 * ge_sum y n + INR (2 * n + 1) * y ^ (2 * n) - 2 / (1 - y * y))) with (2 * ((1 - y * y) * ge_sum y n) + INR (2 * n + 1) * (1 - y * y) * y ^ (2 * n) - 2) by (field; lra).
    assert (3 <= INR (2 * n + 1)) by (replace 3 with (INR 3) by (simpl; lra); apply le_INR; lia). assert (2 <= INR (2 * n + 1) * (1 - y * y)) by nra. nra.
Qed.

(** The partial sum, with [p] running through the odd powers. *)
Fixpoint ser (step : Z -> Z) (rd : Z) (n : nat) (k p acc : Z) : Z * Z :=
  match n with O => (acc, p) | S m => ser step rd m (k + 2) (step p) (acc + p / k + rd) end.
Lemma pow_odd_S w k : w ^ (2 * S k + 1) = w ^ (2 * k + 1) * (w * w).
Proof. replace (2 * S k + 1)%nat with (S (S (2 * k + 1))) by lia. cbn [pow]. ring. Qed.
Lemma ser_dn step w n : (forall p, (0 <= p)%Z -> (0 <= step p)%Z /\ V (step p) <= V p * (w * w)) ->
  forall k p acc, (0 <= p)%Z -> V p <= w ^ (2 * k + 1) -> V acc <= at_sum w k -> V (fst (ser step 0 n (odd k) p acc)) <= at_sum w (k + n).
Proof.
  intros St. induction n as [|n IH]; intros k p acc P T A; cbn [ser].
  - rewrite Nat.add_0_r. auto.
  - replace (odd k + 2)%Z with (odd (S k)) by (unfold odd; lia). rewrite <- Nat.add_succ_comm. destruct (St p P) as [S1 S2]. apply IH; auto.
    + rewrite pow_odd_S. eapply Rle_trans; [exact S2|]. apply Rmult_le_compat_r; [nra|auto].
    + rewrite Z.add_0_r, V_add. cbn [at_sum]. assert (V (p / odd k) <= w ^ (2 * k + 1) / INR (2 * k + 1)); [|lra].
      eapply Rle_trans; [apply V_div_dn; unfold odd; lia|]. rewrite odd_R. apply Rmult_le_compat_r; [apply Rlt_le, Rinv_0_lt_compat, lt_0_INR; lia|auto].
Qed.
Lemma ser_up step w n : (forall p, (0 <= p)%Z -> (0 <= step p)%Z /\ V p * (w * w) <= V (step p)) ->
  forall k p acc, (0 <= p)%Z -> w ^ (2 * k + 1) <= V p -> at_sum w k <= V acc ->
  at_sum w (k + n) <= V (fst (ser step 1 n (odd k) p acc)) /\ w ^ (2 * (k + n) + 1) <= V (snd (ser step 1 n (odd k) p acc)).
Proof.
  intros St. induction n as [|n IH]; intros k p acc P T A; cbn [ser].
  - rewrite Nat.add_0_r. auto.
  - replace (odd k + 2)%Z with (odd (S k)) by (unfold odd; lia). rewrite <- Nat.add_succ_comm. destruct (St p P) as [S1 S2]. apply IH; auto.
    + rewrite pow_odd_S. eapply Rle_trans; [|exact S2]. apply Rmult_le_compat_r; [nra|auto].
    + rewrite <- Z.add_assoc, V_add. cbn [at_sum]. assert (w ^ (2 * k + 1) / INR (2 * k + 1) <= V (p / odd k + 1)); [|lra].
      eapply Rle_trans; [|apply V_div_up; unfold odd; lia]. rewrite odd_R. apply Rmult_le_compat_r; [apply Rlt_le, Rinv_0_lt_compat, lt_0_INR; lia|auto].
Qed.

(** ln of (s + 1) / (s - 1). *)
Definition depth : nat := 52.
Definition lnr_dn (s : Z) : Z := (2 * fst (ser (fun p => p / (s * s)) 0 depth 1 (quo 1 s) 0))%Z.
Definition lnr_up (s : Z) : Z := (let r := ser (fun p => p / (s * s) + 1) 1 depth 1 (quo 1 s + 1) 0 in 2 * fst r + snd r)%Z.
Lemma quo_nonneg a b : (0 <= a)%Z -> (0 < b)%Z -> (0 <= quo a b)%Z.
Proof. intros A B. unfold quo. apply Z.div_pos; auto. apply Z.shiftl_nonneg. auto. Qed.
Lemma lnr_ok s : (2 <= s)%Z -> V (lnr_dn s) <= ln_ratio (1 / IZR s) <= V (lnr_up s).
Proof.
  intros H. apply IZR_le in H as H'. assert (W : 0 <= 1 / IZR s <= 1 / 2).
  { split; [apply Rlt_le, Rdiv_lt_0_compat; lra|]. unfold Rdiv. rewrite !Rmult_1_l. apply Rinv_le_contravar; lra. }
  pose proof (V_quo 1 s ltac:(lia)) as Q. pose proof (quo_nonneg 1 s ltac:(lia) ltac:(lia)) as Q0.
  assert (SS : forall x, x / IZR (s * s) = x * (1 / IZR s * (1 / IZR s))) by (intros; rewrite mult_IZR; field; lra). split.
  - eapply Rle_trans; [|apply (ln_ratio_lower (0 + depth)); lra]. unfold lnr_dn. rewrite V_scale. apply Rmult_le_compat_l; [lra|].
    apply (ser_dn (fun p => p / (s * s))%Z (1 / IZR s) depth) with (k := 0%nat); auto.
    + intros p P. split; [apply Z.div_pos; nia|]. rewrite <- SS. apply V_div_dn. nia.
    + cbn [mult plus pow]. lra.
    + cbn [at_sum]. rewrite V_0. lra.
  - eapply Rle_trans; [apply (ln_ratio_upper (0 + depth)); [unfold depth; lia|lra]|]. unfold lnr_up. cbn zeta.
    destruct (ser_up (fun p => p / (s * s) + 1)%Z (1 / IZR s) depth) with (k := 0%nat) (p := (quo 1 s + 1)%Z) (acc := 0%Z) as [A B]; auto; [| lia | | |].
    + intros p P. split; [assert (0 <= p / (s * s))%Z by (apply Z.div_pos; nia); lia|]. rewrite <- SS. apply V_div_up. nia.
    + cbn [mult plus pow]. lra.
    + cbn [at_sum]. rewrite V_0. lra.
    + change (odd 0) with 1%Z in A, B. rewrite V_add, V_scale. lra.
Qed.
Lemma ln_ratio_eq w : -1 < w < 1 -> ln_ratio w = ln ((1 + w) / (1 - w)).
Proof. intros H. unfold ln_ratio, Rdiv. rewrite ln_mult, ln_Rinv; [ring|lra|lra|apply Rinv_0_lt_compat; lra]. Qed.
Definition ln2_lo : Z := 1013035739299659071135698605846798551586536897318.
Lemma ln2_bounds : V ln2_lo <= ln 2 <= V (ln2_lo + slack).
Proof.
  pose proof (lnr_ok 3 ltac:(lia)) as L. rewrite ln_ratio_eq in L by lra. replace ((1 + 1 / 3) / (1 - 1 / 3)) with 2 in L by field.
  split; [eapply Rle_trans; [|exact (proj1 L)]|eapply Rle_trans; [exact (proj2 L)|]]; apply V_le; vm_compute; discriminate.
Qed.
(** ln of a number from 1 to 3. *)
Definition ln_dn (x : Z) : Z := (let w := quo (x - one) (x + one) in let w2 := mul_dn w w in 2 * fst (ser (fun p => mul_dn p w2) 0 depth 1 w 0))%Z.
Definition ln_up (x : Z) : Z := (let w := quo (x - one) (x + one) + 1 in let w2 := mul_up w w in let r := ser (fun p => mul_up p w2) 1 depth 1 w 0 in 2 * fst r + snd r)%Z.
Lemma mul_nonneg a b : (0 <= a)%Z -> (0 <= b)%Z -> (0 <= mul_dn a b)%Z.
Proof. intros A B. unfold mul_dn. apply Z.shiftr_nonneg. nia. Qed.
Lemma ln_w (x : Z) : (one <= x <= 3 * one)%Z -> let w := (V x - 1) / (V x + 1) in 0 <= w <= 1 / 2 /\ ln_ratio w = ln (V x) /\ V (quo (x - one) (x + one)) <= w <= V (quo (x - one) (x + one) + 1).
Proof.
  intros [A B] w. apply V_le in A as A', B as B'. rewrite V_one in A'. rewrite V_scale, V_one in B'. assert (W : 0 <= w <= 1 / 2).
  { unfold w. split; [apply Rmult_le_pos; [lra|apply Rlt_le, Rinv_0_lt_compat; lra]|].
    apply Rmult_le_reg_r with (V x + 1); [lra|]. unfold Rdiv at 1. rewrite Rmult_assoc, Rinv_l by lra. lra. }
  split; [exact W|]. split.
  - rewrite ln_ratio_eq by lra. f_equal. unfold w. field. split; lra.
  - pose proof (V_quo_V (x - one) (x + one) ltac:(pose proof one_posZ; lia)) as Q. assert (E1 : V (x - one) = V x - 1) by (unfold Z.sub; rewrite V_add, V_opp, V_one; ring). assert (E2 : V (x + one) = V x + 1) by (rewrite V_add, V_one; ring). rewrite E1, E2 in Q. exact Q.
Qed.
Lemma ln_dn_ok x : (one <= x <= 3 * one)%Z -> V (ln_dn x) <= ln (V x).
Proof.
  intros H. destruct (ln_w x H) as [W [E Q]]. cbn zeta in *. set (w := (V x - 1) / (V x + 1)) in *. rewrite <- E. eapply Rle_trans; [|apply (ln_ratio_lower (0 + depth)); lra].
  unfold ln_dn. cbn zeta. set (z := quo (x - one) (x + one)) in *. assert (Z0 : (0 <= z)%Z) by (apply quo_nonneg; pose proof one_posZ; lia). apply V_pos in Z0 as Z1.
  rewrite V_scale. apply Rmult_le_compat_l; [lra|]. apply (ser_dn (fun p => mul_dn p (mul_dn z z)) w depth) with (k := 0%nat); auto.
  - intros p P. split; [apply mul_nonneg; auto; apply mul_nonneg; auto|]. eapply Rle_trans; [apply V_mul_dn|]. apply Rmult_le_compat_l; [apply V_pos, P|].
    eapply Rle_trans; [apply V_mul_dn|]. nra.
  - cbn [mult plus pow]. lra.
  - cbn [at_sum]. rewrite V_0. lra.
Qed.
Lemma ln_up_ok x : (one <= x <= 3 * one)%Z -> ln (V x) <= V (ln_up x).
Proof.
  intros H. destruct (ln_w x H) as [W [E Q]]. cbn zeta in *. set (w := (V x - 1) / (V x + 1)) in *. rewrite <- E. eapply Rle_trans; [apply (ln_ratio_upper (0 + depth)); [unfold depth; lia|lra]|].
  unfold ln_up. cbn zeta. set (z := (quo (x - one) (x + one) + 1)%Z) in *. assert (Z0 : (0 <= z)%Z) by (unfold z; assert (0 <= quo (x - one) (x + one))%Z by (apply quo_nonneg; pose proof one_posZ; lia); lia). apply V_pos in Z0 as Z1.
  destruct (ser_up (fun p => mul_up p (mul_up z z)) w depth) with (k := 0%nat) (p := z) (acc := 0%Z) as [A B]; auto.
  - intros p P. assert (M : (0 <= mul_up z z)%Z) by (unfold mul_up; pose proof (mul_nonneg z z Z0 Z0) as M; unfold mul_dn in M; lia). split.
    + pose proof (mul_nonneg p (mul_up z z) P M) as N. unfold mul_dn in N. unfold mul_up at 1. lia.
    + eapply Rle_trans; [|apply V_mul_up]. apply Rmult_le_compat_l; [apply V_pos, P|]. eapply Rle_trans; [|apply V_mul_up]. nra.
  - cbn [mult plus pow]. lra.
  - cbn [at_sum]. rewrite V_0. lra.
  - change (odd 0) with 1%Z in A, B. rewrite V_add, V_scale. lra.
Qed.

(** ** Expressions and their intervals *)
Inductive expr := Num (q : Q) | Pi | SinOne | CosOne | Given (n : nat) | Add (a b : expr) | Opp (a : expr) | Mul (a b : expr) | Inv (a : expr)
| Sqrt (a : expr) | Exp (a : expr) | Ln (a : expr) (k : nat).
(** [k] in [Ln a k]: halve [a] so often before summing the series. *)
Fixpoint value (env : nat -> R) (e : expr) : R :=
  match e with
  | Num q => Q2R q | Pi => PI | SinOne => sin 1 | CosOne => cos 1 | Given n => env n
  | Add a b => value env a + value env b | Opp a => - value env a | Mul a b => value env a * value env b | Inv a => / value env a
  | Sqrt a => sqrt (value env a) | Exp a => exp (value env a) | Ln a _ => ln (value env a)
  end.
Definition itv := (Z * Z)%type.
Definition inside (x : R) (i : itv) : Prop := V (fst i) <= x <= V (snd i).
Definition terms : nat := 62.
Fixpoint eval (tab : nat -> itv) (e : expr) : option itv :=
  match e with
  | Num q => let z := quo (Qnum q) (Zpos (Qden q)) in Some (z, z + 1)
  | Pi => Some (pi_lo, pi_lo + slack)
  | SinOne => Some (sin_lo, sin_lo + slack)
  | CosOne => Some (cos_lo, cos_lo + slack)
  | Given n => Some (tab n)
  | Add a b => match eval tab a, eval tab b with Some (al, ah), Some (bl, bh) => Some (al + bl, ah + bh) | _, _ => None end
  | Opp a => match eval tab a with Some (al, ah) => Some (- ah, - al) | None => None end
  | Mul a b => match eval tab a, eval tab b with
               | Some (al, ah), Some (bl, bh) => if (0 <=? al) && (0 <=? bl) then Some (mul_dn al bl, mul_up ah bh) else None
               | _, _ => None end
  | Inv a => match eval tab a with Some (al, ah) => if al <=? 0 then None else Some (quo one ah, quo one al + 1) | None => None end
  | Sqrt a => match eval tab a with
              | Some (al, ah) => if (0 <=? al) then Some (Z.sqrt (Z.shiftl al places), Z.sqrt (Z.shiftl ah places) + 1) else None
              | None => None end
  | Exp a => match eval tab a with
             | Some (al, ah) => if (0 <=? al) && (ah <=? 4 * one) then Some (exp_dn al terms, exp_up ah terms) else None
             | None => None end
  | Ln a k => match eval tab a with
              | Some (al, ah) => let l := Z.shiftr al (Z.of_nat k) in let h := Z.shiftr ah (Z.of_nat k) + 1 in
                  if (one <=? l) && (h <=? 3 * one) then Some (Z.of_nat k * ln2_lo + ln_dn l, Z.of_nat k * (ln2_lo + slack) + ln_up h) else None
              | None => None end
  end%bool%Z.

(** ** Soundness *)
Lemma Q2R_0 : Q2R 0 = 0.
Proof. unfold Q2R. simpl. field. Qed.
Ltac zbool := repeat match goal with
  | H : (_ && _)%bool = true |- _ => apply andb_prop in H as [? ?]
  | H : (_ <=? _)%Z = true |- _ => apply Z.leb_le in H
  | H : (_ <=? _)%Z = false |- _ => apply Z.leb_gt in H
  end.
Ltac ok_itv := match goal with H : forall j, Some ?i = Some j -> _ |- _ => specialize (H i eq_refl); unfold inside in H; cbn [fst snd] in H end.
Lemma ln_mono a b : 0 < a -> a <= b -> ln a <= ln b.
Proof. intros A [B| ->]; [left; apply ln_increasing; auto|lra]. Qed.
Lemma exp_mono a b : a <= b -> exp a <= exp b.
Proof. intros [B| ->]; [left; apply exp_increasing; auto|lra]. Qed.
Lemma V_shift z k : V (Z.shiftr z (Z.of_nat k)) <= V z / 2 ^ k <= V (Z.shiftr z (Z.of_nat k) + 1).
Proof.
  rewrite Z.shiftr_div_pow2 by lia. assert (P : (0 < 2 ^ Z.of_nat k)%Z) by (apply Z.pow_pos_nonneg; lia).
  replace (2 ^ k) with (IZR (2 ^ Z.of_nat k)) by (symmetry; apply pow_IZR). split; [apply V_div_dn|apply V_div_up]; auto.
Qed.
Lemma V_sqrt_dn z : (0 <= z)%Z -> V (Z.sqrt (Z.shiftl z places)) <= sqrt (V z) <= V (Z.sqrt (Z.shiftl z places) + 1).
Proof.
  intros H. rewrite Z.shiftl_mul_pow2 by discriminate. fold one. set (n := (z * one)%Z). assert (N : (0 <= n)%Z) by (unfold n; pose proof one_posZ; nia).
  pose proof (Z.sqrt_spec n N) as [A B]. pose proof (Z.sqrt_nonneg n) as S0. set (s := Z.sqrt n) in *. clearbody s. pose proof one_pos.
  assert (E : V z = IZR n / IZR one / IZR one) by (unfold V, n; rewrite mult_IZR; field; lra).
  apply V_pos in S0 as S1. split.
  - rewrite <- (sqrt_square (V s)) by auto. apply sqrt_le_1_alt. rewrite E, V_mul. repeat (apply Rmult_le_compat_r; [apply Rlt_le, Rinv_0_lt_compat; lra|]). apply IZR_le, A.
  - assert (0 <= V (s + 1)) by (apply V_pos; lia). rewrite <- (sqrt_square (V (s + 1))) by auto. apply sqrt_le_1_alt. rewrite E, V_mul. repeat (apply Rmult_le_compat_r; [apply Rlt_le, Rinv_0_lt_compat; lra|]). apply IZR_le. lia.
Qed.
Lemma eval_ok env tab e : (forall n, inside (env n) (tab n)) -> forall i, eval tab e = Some i -> inside (value env e) i.
Proof.
  intros G. induction e as [q| | | |n|a IHa b IHb|a IHa|a IHa b IHb|a IHa|a IHa|a IHa|a IHa k]; intros i E; cbn [eval value] in *.
  - injection E as <-. unfold inside. cbn [fst snd]. apply V_quo. lia.
  - injection E as <-. apply pi_bounds.
  - injection E as <-. apply sin_bounds.
  - injection E as <-. apply cos_bounds.
  - injection E as <-. apply G.
  - destruct (eval tab a) as [[al ah]|]; [|discriminate]. destruct (eval tab b) as [[bl bh]|]; [|discriminate]. injection E as <-. do 2 ok_itv.
    unfold inside. cbn [fst snd]. rewrite !V_add. lra.
  - destruct (eval tab a) as [[al ah]|]; [|discriminate]. injection E as <-. ok_itv. unfold inside. cbn [fst snd]. rewrite !V_opp. lra.
  - destruct (eval tab a) as [[al ah]|]; [|discriminate]. destruct (eval tab b) as [[bl bh]|]; [|discriminate]. destruct (_ && _)%bool eqn:T; [|discriminate]. injection E as <-. zbool. do 2 ok_itv.
    unfold inside. cbn [fst snd]. assert (0 <= V al) by (apply V_pos; auto). assert (0 <= V bl) by (apply V_pos; auto).
    split; [eapply Rle_trans; [apply V_mul_dn|]|eapply Rle_trans; [|apply V_mul_up]]; apply Rmult_le_compat; lra.
  - destruct (eval tab a) as [[al ah]|]; [|discriminate]. destruct (al <=? 0)%Z eqn:T; [discriminate|]. injection E as <-. zbool. ok_itv. unfold inside. cbn [fst snd].
    assert (P : 0 < V al). { rewrite <- V_0. unfold V. apply Rmult_lt_compat_r; [apply Rinv_0_lt_compat, one_pos|apply IZR_lt, T]. }
    assert (PH : (0 < ah)%Z). { apply lt_IZR. apply Rmult_lt_reg_r with (/ IZR one); [apply Rinv_0_lt_compat, one_pos|]. fold (IZR ah / IZR one). fold (V ah). lra. }
    pose proof (V_quo_V one ah PH) as A. pose proof (V_quo_V one al T) as B. rewrite V_one in A, B. unfold Rdiv in A, B. rewrite Rmult_1_l in A, B.
    split; [eapply Rle_trans; [exact (proj1 A)|]|eapply Rle_trans; [|exact (proj2 B)]]; apply Rinv_le_contravar; lra.
  - destruct (eval tab a) as [[al ah]|]; [|discriminate]. destruct (0 <=? al)%Z eqn:T; [|discriminate]. injection E as <-. zbool. ok_itv. unfold inside. cbn [fst snd]. assert (0 <= V al) by (apply V_pos; auto).
    assert (PH : (0 <= ah)%Z). { apply le_IZR. apply Rmult_le_reg_r with (/ IZR one); [apply Rinv_0_lt_compat, one_pos|]. fold (IZR ah / IZR one). fold (V ah). lra. }
    split; [eapply Rle_trans; [apply (proj1 (V_sqrt_dn al T))|]|eapply Rle_trans; [|apply (proj2 (V_sqrt_dn ah PH))]]; apply sqrt_le_1_alt; lra.
  - destruct (eval tab a) as [[al ah]|]; [|discriminate]. destruct (_ && _)%bool eqn:T; [|discriminate]. injection E as <-. zbool. ok_itv. unfold inside. cbn [fst snd]. assert (0 <= V al) by (apply V_pos; auto).
    assert (B : V ah <= 4) by (replace 4 with (V (4 * one)) by (rewrite V_scale, V_one; ring); apply V_le; auto).
    split; [eapply Rle_trans; [apply exp_dn_ok; auto|]|eapply Rle_trans; [|apply exp_up_ok; lra]]; apply exp_mono; lra.
  - destruct (eval tab a) as [[al ah]|]; [|discriminate]. cbn zeta in E. set (l := Z.shiftr al (Z.of_nat k)) in *. set (h := (Z.shiftr ah (Z.of_nat k) + 1)%Z) in *. destruct (_ && _)%bool eqn:T; [|discriminate]. injection E as <-. zbool. ok_itv. unfold inside. cbn [fst snd].
    pose proof (V_shift al k) as SA. fold l in SA. pose proof (V_shift ah k) as SB. fold h in SB. assert (P2 : 0 < 2 ^ k) by (apply pow_lt; lra).
    assert (L1 : 1 <= V l) by (rewrite <- V_one; apply V_le; auto). assert (H3 : V h <= 3) by (replace 3 with (V (3 * one)) by (rewrite V_scale, V_one; ring); apply V_le; auto).
    set (v := value env a) in *. assert (VL : V l <= v / 2 ^ k). { eapply Rle_trans; [exact (proj1 SA)|]. apply Rmult_le_compat_r; [apply Rlt_le, Rinv_0_lt_compat; auto|lra]. }
    assert (VH : v / 2 ^ k <= V h). { eapply Rle_trans; [|exact (proj2 SB)]. apply Rmult_le_compat_r; [apply Rlt_le, Rinv_0_lt_compat; auto|lra]. }
    assert (LV : ln v = INR k * ln 2 + ln (v / 2 ^ k)). { rewrite <- ln_pow by lra. rewrite <- ln_mult by lra. f_equal. field. lra. }
    assert (l <= 3 * one /\ one <= h)%Z as [L3 H1].
    { assert (Q : IZR l <= IZR (3 * one) /\ IZR one <= IZR h); [|split; apply le_IZR; apply Q].
      pose proof one_pos. split; (apply Rmult_le_reg_r with (/ IZR one); [apply Rinv_0_lt_compat; lra|]); fold (IZR l / IZR one); fold (IZR h / IZR one); fold (V l); fold (V h).
      - replace (IZR (3 * one) * / IZR one) with 3 by (rewrite mult_IZR; field; lra). lra.
      - rewrite Rinv_r by lra. lra. }
    pose proof (ln_dn_ok l ltac:(lia)). pose proof (ln_up_ok h ltac:(lia)). pose proof ln2_bounds as L2. pose proof (ln_mono (V l) (v / 2 ^ k) ltac:(lra) VL). pose proof (ln_mono (v / 2 ^ k) (V h) ltac:(lra) VH).
    pose proof (pos_INR k) as K0. assert (INR k * V ln2_lo <= INR k * ln 2) by (apply Rmult_le_compat_l; lra). assert (INR k * ln 2 <= INR k * V (ln2_lo + slack)) by (apply Rmult_le_compat_l; lra).
    rewrite LV. rewrite (V_add (Z.of_nat k * ln2_lo)), (V_add (Z.of_nat k * (ln2_lo + slack))), !V_scale, <- INR_IZR_INZ. lra.
Qed.

(** ** The check of one literal *)
Definition close_to (q : Q) (i : itv) : bool :=
  let n := (Qnum q * one)%Z in let d := Zpos (Qden q) in let b := ((if 0 <=? fst i then fst i else - snd i) * d)%Z in
  ((n - fst i * d) * 10 ^ 36 <=? b)%Z && ((snd i * d - n) * 10 ^ 36 <=? b)%Z.
Lemma close_ok q i x : inside x i -> close_to q i = true -> accurate (Q2R q) x.
Proof.
  intros [A B] H. unfold close_to in H. cbn zeta in H. set (b := if (0 <=? fst i)%Z then fst i else (- snd i)%Z) in *.
  assert (Hb : V b <= Rabs x).
  { unfold b. destruct (0 <=? fst i)%Z eqn:S; zbool; [apply V_pos in S; rewrite Rabs_right by lra; auto|]. rewrite V_opp. pose proof (Rle_abs (- x)). rewrite Rabs_Ropp in *. lra. }
  clearbody b. zbool. apply IZR_le in H, H0. rewrite !mult_IZR, !minus_IZR, !mult_IZR in H, H0.
  assert (T : IZR (10 ^ 36) = 10 ^ 36) by (rewrite pow_IZR; reflexivity). rewrite T in H, H0. unfold accurate, Q2R. pose proof one_pos as O. unfold V in *. set (o := IZR one) in *. clearbody o.
  assert (D : 0 < IZR (Zpos (Qden q))) by (apply IZR_lt; lia). set (d := IZR (Zpos (Qden q))) in *. clearbody d. set (n := IZR (Qnum q)) in *. set (l := IZR (fst i)) in *. set (h := IZR (snd i)) in *. set (bb := IZR b) in *. clearbody n l h bb.
  assert (P : 0 < 10 ^ 36) by (apply pow_lt; lra). set (p := 10 ^ 36) in *. clearbody p. clear T. apply Rmult_le_reg_r with p; auto. replace (Rabs x / p * p) with (Rabs x) by (field; lra).
  eapply Rle_trans; [|exact Hb].
  assert (E1 : (n / d - l / o) * p <= bb / o).
  { apply Rmult_le_reg_r with (o * d); [apply Rmult_lt_0_compat; auto|]. replace ((n / d - l / o) * p * (o * d)) with ((n * o - l * d) * p) by (field; lra). replace (bb / o * (o * d)) with (bb * d) by (field; lra). auto. }
  assert (E2 : (h / o - n / d) * p <= bb / o).
  { apply Rmult_le_reg_r with (o * d); [apply Rmult_lt_0_compat; auto|]. replace ((h / o - n / d) * p * (o * d)) with ((h * d - n * o) * p) by (field; lra). replace (bb / o * (o * d)) with (bb * d) by (field; lra). auto. }
  change (n * / d) with (n / d). unfold Rabs. destruct (Rcase_abs (n / d - x)).
  - eapply Rle_trans; [|exact E2]. apply Rmult_le_compat_r; lra.
  - eapply Rle_trans; [|exact E1]. apply Rmult_le_compat_r; lra.
Qed.
Lemma checked env tab q e x : (forall n, inside (env n) (tab n)) -> value env e = x -> match eval tab e with Some i => close_to q i | None => false end = true -> accurate (Q2R q) x.
Proof. intros G <- H. destruct (eval tab e) as [i|] eqn:E; [|discriminate]. apply (close_ok q i); auto. apply (eval_ok env tab); auto. Qed.
