(** Roots of unity, the discrete Fourier pair, trigonometric sums. *)
From Verif Require Import Base BaseProofs RealBase RealBaseProofs AlgModel SpectralModel CplxProofs.
From Verif Require Import Cplx.
From Coq Require Import ZArith Lia.
Local Open Scope R_scope.

Lemma tw_add n a b : tw n (a + b) = Cmul (tw n a) (tw n b).
Proof. unfold tw. rewrite <- Cexp_add. f_equal. rewrite plus_IZR. unfold Rdiv. ring. Qed.
Lemma tw_0 n : tw n 0 = C1.
Proof. unfold tw. replace (2 * PI * 0 / INR n) with 0 by (unfold Rdiv; ring). apply Cexp_0. Qed.
Lemma tw_conj n a : Cconj (tw n a) = tw n (- a).
Proof. unfold tw. rewrite Cexp_conj. f_equal. rewrite opp_IZR. unfold Rdiv. ring. Qed.
Lemma tw_opp n a : Cmul (tw n a) (tw n (- a)) = C1.
Proof. rewrite <- tw_add, Z.add_opp_diag_r. apply tw_0. Qed.
Lemma tw_pow n a k : tw n (Z.of_nat k * a) = Cpow (tw n a) k.
Proof. unfold tw. rewrite Cexp_pow. f_equal. rewrite mult_IZR, <- INR_IZR_INZ. unfold Rdiv. ring. Qed.
Lemma tw_full_nat n k : (0 < n)%nat -> tw n (Z.of_nat n * Z.of_nat k) = C1.
Proof. intros H. unfold tw. rewrite mult_IZR, <- !INR_IZR_INZ. replace (2 * PI * (INR n * INR k) / INR n) with (2 * INR k * PI) by (field; apply INR_neq0; auto). apply Cexp_2PI_n. Qed.
Lemma tw_full n k : (0 < n)%nat -> tw n (Z.of_nat n * k) = C1.
Proof.
  intros H. destruct (Z.le_gt_cases 0 k) as [P|P].
  - rewrite <- (Z2Nat.id k P). apply tw_full_nat; auto.
  - assert (E : tw n (Z.of_nat n * (- k)) = C1) by (rewrite <- (Z2Nat.id (- k)) by lia; apply tw_full_nat; auto).
    pose proof (tw_opp n (Z.of_nat n * k)) as O. replace (- (Z.of_nat n * k))%Z with (Z.of_nat n * - k)%Z in O by ring. rewrite E in O. rewrite <- O. ring.
Qed.
Lemma tw_period n a k : (0 < n)%nat -> tw n (a + Z.of_nat n * k) = tw n a.
Proof. intros H. rewrite tw_add, tw_full by auto. ring. Qed.
Lemma tw_half n k : (0 < n)%nat -> tw (2 * n) (Z.of_nat n * k) = Cexp (PI * IZR k).
Proof. intros H. unfold tw. f_equal. rewrite mult_IZR, <- INR_IZR_INZ, mult_INR. simpl (INR 2). field. apply INR_neq0; auto. Qed.

(** [tw n a = 1] only for multiples of n. *)
Lemma cos_eq1 x : - (2 * PI) < x < 2 * PI -> cos x = 1 -> x = 0.
Proof.
  intros [H1 H2] E. assert (S : sin (x / 2) = 0). { pose proof (cos_2a_sin (x / 2)) as D. replace (2 * (x / 2)) with x in D by field. rewrite E in D. nra. }
  destruct (Rtotal_order x 0) as [L|[L|L]]; auto; exfalso.
  - assert (0 < sin (- (x / 2))) by (apply sin_gt_0; lra). rewrite sin_neg in H. lra.
  - assert (0 < sin (x / 2)) by (apply sin_gt_0; lra). lra.
Qed.
Lemma tw_eq1 n a : (0 < n)%nat -> (- Z.of_nat n < a < Z.of_nat n)%Z -> tw n a = C1 -> a = 0%Z.
Proof.
  intros H [A1 A2] E. pose proof (RealBaseProofs.INR_pos n H) as P. pose proof PI_RGT_0 as PP. apply (f_equal Re) in E. cbn in E. apply cos_eq1 in E.
  - apply IZR_lt in A1, A2. rewrite opp_IZR in A1. rewrite <- INR_IZR_INZ in A1, A2. assert (IZR a = 0); [|apply eq_IZR; auto].
    apply Rmult_eq_reg_l with (2 * PI / INR n); [|unfold Rdiv; apply Rmult_integral_contrapositive_currified; [lra|apply Rinv_neq_0_compat; lra]]. transitivity (2 * PI * IZR a / INR n); [field; lra|rewrite E; ring].
  - apply IZR_lt in A1, A2. rewrite opp_IZR in A1. rewrite <- INR_IZR_INZ in A1, A2. split.
    + apply Rmult_lt_reg_r with (INR n); auto. replace (2 * PI * IZR a / INR n * INR n) with (2 * PI * IZR a) by (field; lra). nra.
    + apply Rmult_lt_reg_r with (INR n); auto. replace (2 * PI * IZR a / INR n * INR n) with (2 * PI * IZR a) by (field; lra). nra.
Qed.
Lemma geometric z n : Cmul (Csub z C1) (csumf (fun k => Cpow z k) n) = Csub (Cpow z n) C1.
Proof. induction n as [|n IH]; cbn [csumf Cpow]; [ring|]. transitivity (Cadd (Cmul (Csub z C1) (csumf (fun k => Cpow z k) n)) (Cmul (Csub z C1) (Cpow z n))); [ring|]. rewrite IH. ring. Qed.
Lemma Csub_eq0 a b : Csub a b = C0 -> a = b.
Proof. intros H. transitivity (Cadd (Csub a b) b); [ring|rewrite H; ring]. Qed.
(** Orthogonality. *)
Lemma tw_sum n a : (0 < n)%nat -> (- Z.of_nat n < a < Z.of_nat n)%Z ->
  csumf (fun k => tw n (Z.of_nat k * a)) n = if (a =? 0)%Z then RtoC (INR n) else C0.
Proof.
  intros H B. rewrite (csumf_ext _ (fun k => Cpow (tw n a) k)) by (intros; apply tw_pow). destruct (Z.eqb_spec a 0) as [->|N].
  - rewrite tw_0. rewrite (csumf_ext _ (fun _ => C1)); [rewrite csumf_const; ring|]. intros i _. induction i as [|i IH]; cbn [Cpow]; auto. rewrite IH. ring.
  - pose proof (geometric (tw n a) n) as G. rewrite <- tw_pow, tw_full in G by auto. assert (Z0 : Csub C1 C1 = C0) by ring. rewrite Z0 in G. apply Cmul_eq0 in G. destruct G as [G|G]; auto.
    exfalso. apply N. apply (tw_eq1 n); auto. apply Csub_eq0; auto.
Qed.
Lemma tw_sum_mod n a : (0 < n)%nat -> csumf (fun k => tw n (Z.of_nat k * a)) n = if (a mod Z.of_nat n =? 0)%Z then RtoC (INR n) else C0.
Proof.
  intros H. rewrite <- (tw_sum n (a mod Z.of_nat n) H) by (pose proof (Z.mod_pos_bound a (Z.of_nat n)); lia). apply csumf_ext. intros k _.
  rewrite <- (tw_period n (Z.of_nat k * (a mod Z.of_nat n)) (Z.of_nat k * (a / Z.of_nat n)) H). f_equal. pose proof (Z.div_mod a (Z.of_nat n)). nia.
Qed.

(** * The pair *)
Definition DFT (n : nat) (x : nat -> C) (k : nat) : C := csumf (fun j => Cmul (x j) (tw n (- (Z.of_nat j * Z.of_nat k)))) n.
Definition IDFT (n : nat) (X : nat -> C) (m : nat) : C := csumf (fun k => Cmul (X k) (tw n (Z.of_nat k * Z.of_nat m))) n.
Lemma DFT_ext n x y k : (forall j, (j < n)%nat -> x j = y j) -> DFT n x k = DFT n y k.
Proof. intros H. apply csumf_ext. intros j L. rewrite H; auto. Qed.
Lemma IDFT_ext n x y k : (forall j, (j < n)%nat -> x j = y j) -> IDFT n x k = IDFT n y k.
Proof. intros H. apply csumf_ext. intros j L. rewrite H; auto. Qed.
Lemma IDFT_DFT n x m : (m < n)%nat -> IDFT n (DFT n x) m = Cmul (RtoC (INR n)) (x m).
Proof.
  intros H. unfold IDFT, DFT. rewrite (csumf_ext _ (fun k => csumf (fun j => Cmul (x j) (tw n (Z.of_nat k * (Z.of_nat m - Z.of_nat j)))) n)).
  - rewrite csumf_swap. rewrite (csumf_ext _ (fun j => Cmul (x j) (csumf (fun k => tw n (Z.of_nat k * (Z.of_nat m - Z.of_nat j))) n))) by (intros; apply csumf_scal).
    rewrite (csumf_single _ n m H).
    + rewrite tw_sum by lia. rewrite Z.sub_diag. cbn [Z.eqb]. ring.
    + intros j L N. rewrite tw_sum by lia. destruct (Z.eqb_spec (Z.of_nat m - Z.of_nat j) 0); [lia|ring].
  - intros k _. rewrite <- csumf_scal_r. apply csumf_ext. intros j _. transitivity (Cmul (x j) (Cmul (tw n (- (Z.of_nat j * Z.of_nat k))) (tw n (Z.of_nat k * Z.of_nat m)))); [ring|]. rewrite <- tw_add. f_equal. f_equal. ring.
Qed.
Lemma DFT_IDFT n x m : (m < n)%nat -> DFT n (IDFT n x) m = Cmul (RtoC (INR n)) (x m).
Proof.
  intros H. unfold IDFT, DFT. rewrite (csumf_ext _ (fun k => csumf (fun j => Cmul (x j) (tw n (Z.of_nat k * (Z.of_nat j - Z.of_nat m)))) n)).
  - rewrite csumf_swap. rewrite (csumf_ext _ (fun j => Cmul (x j) (csumf (fun k => tw n (Z.of_nat k * (Z.of_nat j - Z.of_nat m))) n))) by (intros; apply csumf_scal).
    rewrite (csumf_single _ n m H).
    + rewrite tw_sum by lia. rewrite Z.sub_diag. cbn [Z.eqb]. ring.
    + intros j L N. rewrite tw_sum by lia. destruct (Z.eqb_spec (Z.of_nat j - Z.of_nat m) 0); [lia|ring].
  - intros k _. rewrite <- csumf_scal_r. apply csumf_ext. intros j _. transitivity (Cmul (x j) (Cmul (tw n (Z.of_nat j * Z.of_nat k)) (tw n (- (Z.of_nat k * Z.of_nat m))))); [ring|]. rewrite <- tw_add. f_equal. f_equal. ring.
Qed.
(** Products of spectra: the general double sum. *)
Lemma IDFT_mul n x y m : IDFT n (fun k => Cmul (DFT n x k) (DFT n y k)) m =
  csumf (fun j => csumf (fun l => Cmul (Cmul (x j) (y l)) (csumf (fun k => tw n (Z.of_nat k * (Z.of_nat m - Z.of_nat j - Z.of_nat l))) n)) n) n.
Proof.
  unfold IDFT, DFT. transitivity (csumf (fun k => csumf (fun j => csumf (fun l => Cmul (Cmul (x j) (y l)) (tw n (Z.of_nat k * (Z.of_nat m - Z.of_nat j - Z.of_nat l)))) n) n) n).
  - apply csumf_ext. intros k _. rewrite <- csumf_scal_r, <- csumf_scal_r. apply csumf_ext. intros j _. rewrite <- csumf_scal, <- csumf_scal_r. apply csumf_ext. intros l _.
    transitivity (Cmul (Cmul (x j) (y l)) (Cmul (Cmul (tw n (- (Z.of_nat j * Z.of_nat k))) (tw n (- (Z.of_nat l * Z.of_nat k)))) (tw n (Z.of_nat k * Z.of_nat m)))); [ring|]. rewrite <- !tw_add. f_equal. f_equal. ring.
  - rewrite csumf_swap. apply csumf_ext. intros j _. rewrite csumf_swap. apply csumf_ext. intros l _. apply csumf_scal.
Qed.
Lemma IDFT_mul_conj n x y m : IDFT n (fun k => Cmul (DFT n x k) (Cconj (DFT n y k))) m =
  csumf (fun j => csumf (fun l => Cmul (Cmul (x j) (Cconj (y l))) (csumf (fun k => tw n (Z.of_nat k * (Z.of_nat m - Z.of_nat j + Z.of_nat l))) n)) n) n.
Proof.
  unfold IDFT, DFT. transitivity (csumf (fun k => csumf (fun j => csumf (fun l => Cmul (Cmul (x j) (Cconj (y l))) (tw n (Z.of_nat k * (Z.of_nat m - Z.of_nat j + Z.of_nat l)))) n) n) n).
  - apply csumf_ext. intros k _. rewrite Cconj_csumf. rewrite <- csumf_scal_r, <- csumf_scal_r. apply csumf_ext. intros j _. rewrite <- csumf_scal, <- csumf_scal_r. apply csumf_ext. intros l _. rewrite Cconj_mul, tw_conj.
    transitivity (Cmul (Cmul (x j) (Cconj (y l))) (Cmul (Cmul (tw n (- (Z.of_nat j * Z.of_nat k))) (tw n (- - (Z.of_nat l * Z.of_nat k)))) (tw n (Z.of_nat k * Z.of_nat m)))); [ring|]. rewrite <- !tw_add. f_equal. f_equal. ring.
  - rewrite csumf_swap. apply csumf_ext. intros j _. rewrite csumf_swap. apply csumf_ext. intros l _. apply csumf_scal.
Qed.
(** Spectra of real signals are Hermitian. *)
Lemma DFT_hermitian n (x : nat -> R) k : (k <= n)%nat -> (0 < n)%nat -> DFT n (fun j => RtoC (x j)) (n - k) = Cconj (DFT n (fun j => RtoC (x j)) k).
Proof.
  intros K H. unfold DFT. rewrite Cconj_csumf. apply csumf_ext. intros j _. rewrite Cconj_mul, tw_conj.
  assert (R1 : Cconj (RtoC (x j)) = RtoC (x j)) by (apply C_eq; cbn; ring). rewrite R1. f_equal.
  rewrite <- (tw_period n (- - (Z.of_nat j * Z.of_nat k)) (- Z.of_nat j) H). f_equal. rewrite Nat2Z.inj_sub by auto. ring.
Qed.
Lemma Cconj_real z : Cconj z = z -> z = RtoC (Re z).
Proof. intros E. apply (f_equal Im) in E. cbn in E. apply C_eq; cbn; [reflexivity|lra]. Qed.
(** A Hermitian array has a real inverse transform. *)
Lemma IDFT_real n X m : (0 < n)%nat -> Cconj (X 0%nat) = X 0%nat -> (forall k, (0 < k < n)%nat -> X (n - k)%nat = Cconj (X k)) -> Cconj (IDFT n X m) = IDFT n X m.
Proof.
  intros H H0 HX. unfold IDFT. rewrite Cconj_csumf. destruct n as [|n]; [lia|]. rewrite !csumf_S_l. f_equal.
  - rewrite Cconj_mul, H0, tw_conj. f_equal.
  - transitivity (csumf (fun i => Cmul (X (S n - S i)%nat) (tw (S n) (Z.of_nat (S n - S i) * Z.of_nat m))) n).
    + apply csumf_ext. intros i L. rewrite Cconj_mul, tw_conj, HX by lia. f_equal. rewrite <- (tw_period (S n) (- (Z.of_nat (S i) * Z.of_nat m)) (Z.of_nat m)) by lia. f_equal. rewrite Nat2Z.inj_sub by lia. ring.
    + clear. set (f := fun i => Cmul (X (S i)) (tw (S n) (Z.of_nat (S i) * Z.of_nat m))).
      rewrite (csumf_ext _ (fun i => f (n - 1 - i)%nat)).
      * apply C_eq; rewrite ?Re_csumf, ?Im_csumf; symmetry; [apply (sumf_rev (fun i => Re (f i)))|apply (sumf_rev (fun i => Im (f i)))].
      * intros i L. unfold f. replace (S (n - 1 - i)) with (S n - S i)%nat by lia. reflexivity.
Qed.

(** * Cosine sums *)
Lemma cos_sum_closed a n : sin (a / 2) <> 0 -> 2 * sin (a / 2) * sumf (fun k => cos (INR (S k) * a)) n = sin ((INR n + 1 / 2) * a) - sin (a / 2).
Proof.
  intros H. induction n as [|n IH]; cbn [sumf].
  - simpl. replace ((0 + 1 / 2) * a) with (a / 2) by field. ring.
  - rewrite Rmult_plus_distr_l, IH. rewrite S_INR. replace ((INR n + 1 + 1 / 2) * a) with ((INR n + 1) * a + a / 2) by field. replace ((INR n + 1 / 2) * a) with ((INR n + 1) * a - a / 2) by field. rewrite sin_plus, sin_minus. ring.
Qed.
Lemma cos_PI_Z d : cos (PI * IZR d) = if Z.even d then 1 else -1.
Proof.
  assert (P : forall k, cos (PI * IZR (2 * k)) = 1 /\ sin (PI * IZR (2 * k)) = 0).
  { intros k. rewrite mult_IZR. assert (S0 : sin (IZR k * PI) = 0) by (apply sin_eq_0_1; exists k; reflexivity). replace (PI * (2 * IZR k)) with (2 * (IZR k * PI)) by ring. rewrite cos_2a_sin, sin_2a, S0. split; ring. }
  destruct (Z.even d) eqn:E.
  - apply Z.even_spec in E. destruct E as [k ->]. apply P.
  - rewrite <- Z.negb_odd, Bool.negb_false_iff in E. apply Z.odd_spec in E. destruct E as [k ->]. rewrite plus_IZR, Rmult_plus_distr_l, Rmult_1_r, neg_cos. destruct (P k) as [-> _]. reflexivity.
Qed.
Lemma sin_PI_Z d : sin (PI * IZR d) = 0.
Proof. apply sin_eq_0_1. exists d. ring. Qed.
(** sum_{1<=k<n} cos(pi k d / n) for d not a multiple of 2n. *)
Lemma cos_sum_int n d : (0 < n)%nat -> (- 2 * Z.of_nat n < d < 2 * Z.of_nat n)%Z -> d <> 0%Z ->
  sumf (fun k => cos (INR (S k) * (PI * IZR d / INR n))) (n - 1) = if Z.even d then -1 else 0.
Proof.
  intros H [D1 D2] N. pose proof (RealBaseProofs.INR_pos n H) as P. pose proof PI_RGT_0 as PP. set (a := PI * IZR d / INR n).
  assert (S0 : sin (a / 2) <> 0).
  { apply IZR_lt in D1, D2. rewrite mult_IZR, <- INR_IZR_INZ in D1, D2.
    assert (B : - PI < a / 2 < PI). { unfold a. split; apply Rmult_lt_reg_r with (2 * INR n); try lra; replace (PI * IZR d / INR n / 2 * (2 * INR n)) with (PI * IZR d) by (field; lra); nra. }
    assert (A0 : a / 2 <> 0). { unfold a. intros E. apply N. apply eq_IZR. assert (E2 : PI * IZR d = 0) by (replace (PI * IZR d) with (PI * IZR d / INR n / 2 * (2 * INR n)) by (field; lra); rewrite E; ring). apply Rmult_integral in E2. destruct E2; [lra|auto]. }
    destruct (Rtotal_order (a / 2) 0) as [L|[L|L]]; [|contradiction|].
    - assert (0 < sin (- (a / 2))) by (apply sin_gt_0; lra). rewrite sin_neg in H0. lra.
    - assert (0 < sin (a / 2)) by (apply sin_gt_0; lra). lra. }
  pose proof (cos_sum_closed a (n - 1) S0) as E. rewrite minus_INR in E by lia. simpl (INR 1) in E.
  replace ((INR n - 1 + 1 / 2) * a) with (PI * IZR d - a / 2) in E by (unfold a; field; lra). rewrite sin_minus, sin_PI_Z, cos_PI_Z in E.
  apply Rmult_eq_reg_l with (2 * sin (a / 2)); [|lra]. rewrite E. destruct (Z.even d); ring.
Qed.
