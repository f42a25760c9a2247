(** Limits of slowly convergent sequences, bounded by corrections whose differences enclose the steps
    of the sequence.  The inequalities between rational functions are checked on polynomials. *)
From Coq Require Import Reals Lra Lia ZArith List Bool.
From Verif Require Import ConstProofs.
Import ListNotations.
Local Open Scope R_scope.

(** ** Polynomials, lowest coefficient first *)
Fixpoint peval (p : list Z) (x : R) : R := match p with [] => 0 | c :: t => IZR c + x * peval t x end.
Fixpoint padd (p q : list Z) : list Z := match p, q with [], _ => q | _, [] => p | a :: s, b :: t => (a + b)%Z :: padd s t end.
Definition pscale (c : Z) (p : list Z) : list Z := map (Z.mul c) p.
Fixpoint pmul (p q : list Z) : list Z := match p with [] => [] | a :: s => padd (pscale a q) (0%Z :: pmul s q) end.
Fixpoint ppow (p : list Z) (n : nat) : list Z := match n with O => [1%Z] | S k => pmul p (ppow p k) end.
Definition psub (p q : list Z) : list Z := padd p (pscale (-1) q).
Fixpoint pshift (p : list Z) (a : Z) : list Z := match p with [] => [] | c :: t => let s := pshift t a in padd [c] (padd (pscale a s) (0%Z :: s)) end.
Definition nonneg (p : list Z) : bool := forallb (Z.leb 0) p.
Lemma padd_ok p : forall q x, peval (padd p q) x = peval p x + peval q x.
Proof. induction p as [|a p IH]; intros [|b q] x; cbn [padd peval]; try ring. rewrite IH, plus_IZR. ring. Qed.
Lemma pscale_ok c p x : peval (pscale c p) x = IZR c * peval p x.
Proof. induction p as [|a p IH]; cbn [pscale map peval]; [ring|]. fold (pscale c p). rewrite IH, mult_IZR. ring. Qed.
Lemma pmul_ok p q x : peval (pmul p q) x = peval p x * peval q x.
Proof. induction p as [|a p IH]; cbn [pmul peval]; [ring|]. rewrite padd_ok, pscale_ok. cbn [peval]. rewrite IH. ring. Qed.
Lemma ppow_ok p n x : peval (ppow p n) x = peval p x ^ n.
Proof. induction n as [|n IH]; cbn [ppow pow]; [cbn [peval]; ring|]. rewrite pmul_ok, IH. reflexivity. Qed.
Lemma psub_ok p q x : peval (psub p q) x = peval p x - peval q x.
Proof. unfold psub. rewrite padd_ok, pscale_ok. ring. Qed.
Lemma pshift_ok p a x : peval (pshift p a) x = peval p (IZR a + x).
Proof. induction p as [|c p IH]; cbn [pshift peval]; [ring|]. cbn zeta. rewrite !padd_ok, pscale_ok. cbn [peval]. rewrite IH. ring. Qed.
Lemma nonneg_ok p x : nonneg p = true -> 0 <= x -> 0 <= peval p x.
Proof.
  intros H X. induction p as [|c p IH]; cbn [peval]; [lra|]. cbn [nonneg forallb] in H. apply andb_prop in H as [A B]. apply Z.leb_le, IZR_le in A. specialize (IH B). nra.
Qed.
Lemma nonneg_from p a x : nonneg (pshift p a) = true -> IZR a <= x -> 0 <= peval p x.
Proof. intros H X. replace x with (IZR a + (x - IZR a)) by ring. rewrite <- pshift_ok. apply nonneg_ok; auto. lra. Qed.

(** ** Corrections: c1/y^2 + c2/y^4 + ..., times y if [p] *)
Fixpoint geval (cs : list Z) (u : R) : R := match cs with [] => 0 | c :: t => u * (IZR c + geval t u) end.
Definition G (cs : list Z) (q : Z) (p : bool) (y : R) : R := (if p then y else 1) * geval cs (/ (y * y)) / IZR q.
Fixpoint hom (cs U W : list Z) : list Z := match cs with [] => [] | c :: t => pmul U (padd (pscale c (ppow W (length t))) (hom t U W)) end.
Lemma hom_ok cs U W x : peval W x <> 0 -> peval (hom cs U W) x = peval W x ^ length cs * geval cs (peval U x / peval W x).
Proof.
  intros N. induction cs as [|c t IH]; cbn [hom geval length]; [cbn [peval pow]; ring|]. rewrite pmul_ok, padd_ok, pscale_ok, ppow_ok, IH. cbn [pow]. field. auto.
Qed.
Definition pA : list Z := [-1; 1]%Z.
Definition pB : list Z := [1; 1]%Z.
Definition pX : list Z := [0; 1]%Z.
Definition pW : list Z := pmul (pmul pA pA) (pmul pB pB).
Definition pGdiff (p : bool) (cs : list Z) : list Z :=
  let a := hom cs (pmul pB pB) pW in let b := hom cs (pmul pA pA) pW in
  psub (if p then pmul pA a else a) (if p then pmul pB b else b).
Lemma pA_ok x : peval pA x = x - 1. Proof. unfold pA. cbn [peval]. ring. Qed.
Lemma pB_ok x : peval pB x = x + 1. Proof. unfold pB. cbn [peval]. ring. Qed.
Lemma pX_ok x : peval pX x = x. Proof. unfold pX. cbn [peval]. ring. Qed.
Lemma pW_ok x : peval pW x = (x - 1) * (x - 1) * ((x + 1) * (x + 1)).
Proof. unfold pW. rewrite !pmul_ok, pA_ok, pB_ok. ring. Qed.
Lemma pGdiff_ok p cs q x : 1 < x -> (0 < q)%Z -> peval (pGdiff p cs) x = IZR q * peval pW x ^ length cs * (G cs q p (x - 1) - G cs q p (x + 1)).
Proof.
  intros X Q. apply IZR_lt in Q. assert (N : peval pW x <> 0) by (rewrite pW_ok; apply Rgt_not_eq; repeat apply Rmult_lt_0_compat; lra).
  unfold pGdiff. cbn zeta. rewrite psub_ok. assert (N1 : x - 1 <> 0) by lra. assert (N2 : x + 1 <> 0) by lra.
  assert (EA : peval (hom cs (pmul pB pB) pW) x = peval pW x ^ length cs * geval cs (/ ((x - 1) * (x - 1)))).
  { rewrite hom_ok by auto. do 2 f_equal. rewrite pW_ok, pmul_ok, pB_ok. field. auto. }
  assert (EB : peval (hom cs (pmul pA pA) pW) x = peval pW x ^ length cs * geval cs (/ ((x + 1) * (x + 1)))).
  { rewrite hom_ok by auto. do 2 f_equal. rewrite pW_ok, pmul_ok, pA_ok. field. auto. }
  unfold G. destruct p; [rewrite !pmul_ok, pA_ok, pB_ok|]; rewrite EA, EB; field; lra.
Qed.
Lemma pW_pos x : 1 < x -> 0 < peval pW x.
Proof. intros X. rewrite pW_ok. repeat apply Rmult_lt_0_compat; lra. Qed.
(** [num / den] is below (above) the difference of the corrections from [a] on. *)
Definition below (p : bool) (cs : list Z) (q : Z) (num den : list Z) (a : Z) : bool :=
  nonneg (pshift (psub (pmul den (pGdiff p cs)) (pscale q (pmul (ppow pW (length cs)) num))) a).
Definition above (p : bool) (cs : list Z) (q : Z) (num den : list Z) (a : Z) : bool :=
  nonneg (pshift (psub (pscale q (pmul (ppow pW (length cs)) num)) (pmul den (pGdiff p cs))) a).
Lemma below_ok p cs q num den a x : below p cs q num den a = true -> (0 < q)%Z -> (1 < a)%Z -> IZR a <= x -> 0 < peval den x ->
  peval num x / peval den x <= G cs q p (x - 1) - G cs q p (x + 1).
Proof.
  intros H Q A X D. apply IZR_lt in A. pose proof (nonneg_from _ _ _ H X) as P. rewrite psub_ok, pscale_ok, !pmul_ok, ppow_ok, (pGdiff_ok p cs q) in P by (lra || auto).
  apply IZR_lt in Q. assert (W : 0 < peval pW x ^ length cs) by (apply pow_lt, pW_pos; lra). set (w := peval pW x ^ length cs) in *. set (g := G cs q p (x - 1) - G cs q p (x + 1)) in *.
  set (n := peval num x) in *. set (d := peval den x) in *. clearbody w g n d.
  apply Rmult_le_reg_r with (d * (IZR q * w)); [repeat apply Rmult_lt_0_compat; auto|]. replace (n / d * (d * (IZR q * w))) with (n * (IZR q * w)) by (field; lra). lra.
Qed.
Lemma above_ok p cs q num den a x : above p cs q num den a = true -> (0 < q)%Z -> (1 < a)%Z -> IZR a <= x -> 0 < peval den x ->
  G cs q p (x - 1) - G cs q p (x + 1) <= peval num x / peval den x.
Proof.
  intros H Q A X D. apply IZR_lt in A. pose proof (nonneg_from _ _ _ H X) as P. rewrite psub_ok, pscale_ok, !pmul_ok, ppow_ok, (pGdiff_ok p cs q) in P by (lra || auto).
  apply IZR_lt in Q. assert (W : 0 < peval pW x ^ length cs) by (apply pow_lt, pW_pos; lra). set (w := peval pW x ^ length cs) in *. set (g := G cs q p (x - 1) - G cs q p (x + 1)) in *.
  set (n := peval num x) in *. set (d := peval den x) in *. clearbody w g n d.
  apply Rmult_le_reg_r with (d * (IZR q * w)); [repeat apply Rmult_lt_0_compat; auto|]. replace (n / d * (d * (IZR q * w))) with (n * (IZR q * w)) by (field; lra). lra.
Qed.

(** ** The logarithm of (x + 1) / (x - 1) between rational functions *)
Fixpoint ln_num (l : Z) (n : nat) : list Z := match n with O => [] | S k => pmul (pmul pX pX) (padd [(2 * l / odd k)%Z] (ln_num l k)) end.
Definition ln_den (l : Z) (n : nat) : list Z := pscale l (ppow pX (2 * n + 1)).
Fixpoint divisible (l : Z) (n : nat) : bool := match n with O => true | S k => ((2 * l / odd k) * odd k =? 2 * l)%Z && divisible l k end.
Lemma pow_1_div x n : (1 / x) ^ n = / x ^ n.
Proof. unfold Rdiv. rewrite Rmult_1_l. apply pow_inv. Qed.
Lemma ln_num_ok l n x : divisible l n = true -> x <> 0 -> peval (ln_num l n) x = 2 * at_sum (1 / x) n * (IZR l * x ^ (2 * n + 1)).
Proof.
  intros D X. induction n as [|n IH]; cbn [ln_num at_sum]; [cbn [peval]; ring|]. cbn [divisible] in D. apply andb_prop in D as [D1 D2]. apply Z.eqb_eq in D1. specialize (IH D2).
  rewrite !pmul_ok, padd_ok, pX_ok, IH. cbn [peval]. apply (f_equal IZR) in D1. rewrite !mult_IZR, odd_R in D1. assert (N : INR (2 * n + 1) <> 0) by (apply not_0_INR; lia).
  replace (IZR (2 * l / odd n)) with (2 * IZR l / INR (2 * n + 1)) by (apply Rmult_eq_reg_r with (INR (2 * n + 1)); auto; rewrite D1; field; auto).
  replace (2 * S n + 1)%nat with (S (S (2 * n + 1))) by lia. cbn [pow]. rewrite pow_1_div. field. repeat split; auto. apply pow_nonzero; auto.
Qed.
Lemma ln_den_ok l n x : peval (ln_den l n) x = IZR l * x ^ (2 * n + 1).
Proof. unfold ln_den. rewrite pscale_ok, ppow_ok, pX_ok. reflexivity. Qed.
Lemma ln_den_pos l n x : (0 < l)%Z -> 0 < x -> 0 < peval (ln_den l n) x.
Proof. intros L X. rewrite ln_den_ok. apply Rmult_lt_0_compat; [apply IZR_lt, L|apply pow_lt, X]. Qed.
Definition lnx (x : R) : R := ln_ratio (1 / x).
Lemma inv_half x : 2 <= x -> 0 <= 1 / x <= 1 / 2.
Proof. intros X. split; [apply Rlt_le, Rdiv_lt_0_compat; lra|]. unfold Rdiv. rewrite !Rmult_1_l. apply Rinv_le_contravar; lra. Qed.
Lemma lnx_bounds l n x : divisible l n = true -> (0 < l)%Z -> (0 < n)%nat -> 2 <= x ->
  peval (ln_num l n) x / peval (ln_den l n) x <= lnx x <= peval (padd [l] (ln_num l n)) x / peval (ln_den l n) x.
Proof.
  intros D L N X. pose proof (inv_half x X) as W. rewrite padd_ok, ln_num_ok, ln_den_ok by (auto; lra). cbn [peval]. apply IZR_lt in L. assert (P : 0 < x ^ (2 * n + 1)) by (apply pow_lt; lra). split.
  - replace (2 * at_sum (1 / x) n * (IZR l * x ^ (2 * n + 1)) / (IZR l * x ^ (2 * n + 1))) with (2 * at_sum (1 / x) n) by (field; lra). apply ln_ratio_lower. lra.
  - replace ((IZR l + x * 0 + 2 * at_sum (1 / x) n * (IZR l * x ^ (2 * n + 1))) / (IZR l * x ^ (2 * n + 1))) with (2 * at_sum (1 / x) n + (1 / x) ^ (2 * n + 1)).
    + apply ln_ratio_upper; auto.
    + rewrite pow_1_div. field. lra.
Qed.
Lemma lnx_eq x : 1 < x -> lnx x = ln ((x + 1) / (x - 1)).
Proof.
  intros X. unfold lnx. rewrite ln_ratio_eq.
  - f_equal. field. lra.
  - assert (0 < 1 / x) by (apply Rdiv_lt_0_compat; lra). split; [lra|]. apply Rmult_lt_reg_r with x; [lra|]. unfold Rdiv. rewrite Rmult_assoc, Rinv_l; lra.
Qed.

(** ** Limits *)
Lemma cv_const c : Un_cv (fun _ => c) c.
Proof. intros e E. exists 0%nat. intros n _. unfold R_dist. rewrite Rminus_diag_eq, Rabs_R0 by auto. auto. Qed.
Lemma cv_ext a b l : (forall n, a n = b n) -> Un_cv a l -> Un_cv b l.
Proof. intros E H e P. destruct (H e P) as [N HN]. exists N. intros n Hn. rewrite <- E. auto. Qed.
Lemma cv_shift a k l : Un_cv (fun n => a (k + n)%nat) l -> Un_cv a l.
Proof. intros H e P. destruct (H e P) as [N HN]. exists (k + N)%nat. intros n Hn. specialize (HN (n - k)%nat ltac:(lia)). replace (k + (n - k))%nat with n in HN by lia. auto. Qed.
Lemma cv_shift' a k l : Un_cv a l -> Un_cv (fun n => a (k + n)%nat) l.
Proof. intros H e P. destruct (H e P) as [N HN]. exists N. intros n Hn. apply HN. lia. Qed.
Lemma cv_squeeze a b l : (forall n, Rabs (a n - l) <= b n) -> Un_cv b 0 -> Un_cv a l.
Proof. intros H B e P. destruct (B e P) as [N HN]. exists N. intros n Hn. specialize (HN n Hn). unfold R_dist in *. rewrite Rminus_0_r in HN. pose proof (Rle_abs (b n)). specialize (H n). lra. Qed.
Lemma unbounded r : exists n, r < INR n.
Proof. exists (Z.to_nat (up r)). destruct (archimed r) as [A _]. rewrite INR_IZR_INZ. eapply Rlt_le_trans; [exact A|]. apply IZR_le. lia. Qed.
Lemma cv_inv_nat C : Un_cv (fun n => C / INR (S n)) 0.
Proof.
  intros e P. destruct (unbounded (Rabs C / e)) as [N HN]. exists N. intros n Hn. unfold R_dist. rewrite Rminus_0_r. unfold Rdiv. rewrite Rabs_mult.
  assert (I : 0 < INR (S n)) by (apply lt_0_INR; lia). rewrite (Rabs_right (/ INR (S n))) by (apply Rle_ge, Rlt_le, Rinv_0_lt_compat; auto).
  apply Rmult_lt_reg_r with (INR (S n)); auto. rewrite Rmult_assoc, Rinv_l, Rmult_1_r by lra. assert (INR N <= INR (S n)) by (apply le_INR; lia).
  apply Rmult_lt_reg_r with (/ e); [apply Rinv_0_lt_compat; auto|]. replace (e * INR (S n) * / e) with (INR (S n)) by (field; lra). unfold Rdiv in HN. lra.
Qed.
Fixpoint abs_sum (cs : list Z) : R := match cs with [] => 0 | c :: t => Rabs (IZR c) + abs_sum t end.
Lemma abs_sum_pos cs : 0 <= abs_sum cs.
Proof. induction cs as [|c t IH]; cbn [abs_sum]; [lra|]. pose proof (Rabs_pos (IZR c)). lra. Qed.
Lemma geval_small cs u : 0 <= u <= 1 -> Rabs (geval cs u) <= u * abs_sum cs.
Proof.
  intros U. induction cs as [|c t IH]; cbn [geval abs_sum]; [rewrite Rabs_R0; lra|]. rewrite Rabs_mult, (Rabs_right u) by lra. apply Rmult_le_compat_l; [lra|].
  eapply Rle_trans; [apply Rabs_triang|]. pose proof (abs_sum_pos t). nra.
Qed.
Lemma G_small cs q p y : (0 < q)%Z -> 1 <= y -> Rabs (G cs q p y) <= abs_sum cs / y.
Proof.
  intros Q Y. assert (Q1 : 1 <= IZR q) by (apply IZR_le; lia). unfold G, Rdiv. rewrite !Rabs_mult. set (u := / (y * y)).
  assert (U : 0 <= u <= 1). { unfold u. split; [apply Rlt_le, Rinv_0_lt_compat; nra|]. rewrite <- Rinv_1. apply Rinv_le_contravar; nra. }
  pose proof (geval_small cs u U) as S. pose proof (abs_sum_pos cs) as C. assert (I : 0 <= Rabs (/ IZR q) <= 1).
  { rewrite Rabs_right by (apply Rle_ge, Rlt_le, Rinv_0_lt_compat; lra). split; [apply Rlt_le, Rinv_0_lt_compat; lra|]. rewrite <- Rinv_1. apply Rinv_le_contravar; lra. }
  assert (P : Rabs (if p then y else 1) <= y) by (destruct p; rewrite Rabs_right; lra). pose proof (Rabs_pos (geval cs u)) as Z. pose proof (Rabs_pos (if p then y else 1)) as Z2.
  apply Rle_trans with (y * (u * abs_sum cs) * 1).
  - apply Rmult_le_compat; try lra; [apply Rmult_le_pos; auto|]. apply Rmult_le_compat; auto.
  - unfold u. apply Req_le. field. lra.
Qed.
Section steps.
Context (a : nat -> R) (d : R -> R) (X0 : Z) (N : nat) (p : bool) (cl : list Z) (ql : Z) (cu : list Z) (qu : Z).
Let X (n : nat) : R := IZR (2 * Z.of_nat n + X0).
Context (HX : (3 <= X0)%Z) (HL : (0 < ql)%Z) (HU : (0 < qu)%Z).
Context (step : forall n, a (S n) - a n = d (X n)).
Context (enclosed : forall x, X N <= x -> G cl ql p (x - 1) - G cl ql p (x + 1) <= d x <= G cu qu p (x - 1) - G cu qu p (x + 1)).
Lemma X_S n : X (S n) = X n + 2.
Proof. unfold X. rewrite <- plus_IZR. f_equal. lia. Qed.
Lemma X_mono n k : X n <= X (n + k).
Proof. unfold X. apply IZR_le. lia. Qed.
Lemma X_big n : INR (S n) <= X n - 1.
Proof. unfold X. rewrite <- minus_IZR, INR_IZR_INZ. apply IZR_le. lia. Qed.
Let lo (n : nat) : R := a (N + n) + G cl ql p (X (N + n) - 1).
Let hi (n : nat) : R := a (N + n) + G cu qu p (X (N + n) - 1).
Lemma lo_growing : Un_growing lo.
Proof.
  intros n. unfold lo. rewrite <- plus_n_Sm, X_S. destruct (enclosed (X (N + n)) (X_mono N n)) as [A _]. pose proof (step (N + n)). replace (X (N + n) + 2 - 1) with (X (N + n) + 1) by ring. lra.
Qed.
Lemma hi_decreasing : Un_decreasing hi.
Proof.
  intros n. unfold hi. rewrite <- plus_n_Sm, X_S. destruct (enclosed (X (N + n)) (X_mono N n)) as [_ A]. pose proof (step (N + n)). replace (X (N + n) + 2 - 1) with (X (N + n) + 1) by ring. lra.
Qed.
Lemma corr_cv cs q : (0 < q)%Z -> Un_cv (fun n => G cs q p (X (N + n) - 1)) 0.
Proof.
  intros Q. apply (cv_shift' (fun n => G cs q p (X n - 1)) N). apply cv_squeeze with (fun n => abs_sum cs / INR (S n)); [|apply cv_inv_nat]. intros n. rewrite Rminus_0_r.
  pose proof (X_big n) as B. assert (I : 1 <= INR (S n)) by (change 1 with (INR 1); apply le_INR; lia). eapply Rle_trans; [apply G_small; auto; lra|].
  unfold Rdiv. apply Rmult_le_compat_l; [apply abs_sum_pos|]. apply Rinv_le_contravar; lra.
Qed.
Lemma steps_exists : exists l, Un_cv a l.
Proof.
  assert (B : exists M, forall n, Rabs (G cl ql p (X (N + n) - 1) - G cu qu p (X (N + n) - 1)) <= M).
  { destruct (maj_by_pos (fun n => G cl ql p (X (N + n) - 1) - G cu qu p (X (N + n) - 1))) as [M [_ HM]]; [|exists M; auto]. exists (0 - 0). apply (CV_minus _ _ _ _ (corr_cv cl ql HL) (corr_cv cu qu HU)). }
  destruct B as [M HM]. destruct (growing_cv lo lo_growing) as [l Hl].
  - exists (hi 0 + M). intros x [n ->]. pose proof (decreasing_prop hi 0 n hi_decreasing ltac:(lia)) as D. specialize (HM n). pose proof (Rle_abs (G cl ql p (X (N + n) - 1) - G cu qu p (X (N + n) - 1))). unfold lo, hi in *. lra.
  - exists l. apply (cv_shift a N). apply cv_ext with (fun n => lo n - G cl ql p (X (N + n) - 1)); [intros n; unfold lo; ring|].
    replace l with (l - 0) by ring. apply CV_minus; [auto|apply corr_cv, HL].
Qed.
Lemma steps_bounds l : Un_cv a l -> a N + G cl ql p (X N - 1) <= l <= a N + G cu qu p (X N - 1).
Proof.
  intros H. apply (cv_shift' a N) in H. assert (L : Un_cv lo l) by (replace l with (l + 0) by ring; apply (CV_plus (fun n => a (N + n)%nat)); [auto|apply corr_cv, HL]).
  assert (U : Un_cv hi l) by (replace l with (l + 0) by ring; apply (CV_plus (fun n => a (N + n)%nat)); [auto|apply corr_cv, HU]).
  pose proof (growing_ineq lo l lo_growing L 0) as A. pose proof (decreasing_ineq hi l hi_decreasing U 0) as B. unfold lo in A. unfold hi in B. rewrite Nat.add_0_r in A, B. auto.
Qed.
End steps.

(** The value of a correction at an integer. *)
Fixpoint gz (cs : list Z) (y2 : Z) : Z := match cs with [] => 0 | c :: t => (c * y2 ^ Z.of_nat (length t) + gz t y2)%Z end.
Definition Gq (cs : list Z) (q : Z) (p : bool) (y : Z) : Z := quo ((if p then y else 1) * gz cs (y * y)) (q * (y * y) ^ Z.of_nat (length cs)).
Lemma gz_ok cs y2 : (0 < y2)%Z -> geval cs (/ IZR y2) = IZR (gz cs y2) / IZR y2 ^ length cs.
Proof.
  intros Y. apply IZR_lt in Y. induction cs as [|c t IH]; cbn [geval gz length]; [unfold Rdiv; ring|]. rewrite IH, plus_IZR, mult_IZR, <- pow_IZR. cbn [pow]. field.
  split; [apply pow_nonzero|]; lra.
Qed.
Lemma Gq_ok cs q p y : (0 < q)%Z -> (0 < y)%Z -> V (Gq cs q p y) <= G cs q p (IZR y) <= V (Gq cs q p y + 1).
Proof.
  intros Q Y. unfold Gq, G. assert (D : (0 < q * (y * y) ^ Z.of_nat (length cs))%Z) by (apply Z.mul_pos_pos; auto; apply Z.pow_pos_nonneg; nia).
  replace ((if p then IZR y else 1) * geval cs (/ (IZR y * IZR y)) / IZR q) with (IZR ((if p then y else 1) * gz cs (y * y)) / IZR (q * (y * y) ^ Z.of_nat (length cs))); [apply V_quo; auto|].
  rewrite <- mult_IZR, gz_ok, !mult_IZR, <- pow_IZR, !mult_IZR by nia. replace (IZR (if p then y else 1%Z)) with (if p then IZR y else 1) by (destruct p; reflexivity).
  apply IZR_lt in Q, Y. field. split; [|lra]. apply pow_nonzero. nra.
Qed.
