(** Evenly spaced values and differences in IEEE formats. *)
From Coq Require Import ZArith Reals List Bool Lia Lra Psatz.
From Flocq Require Import Core BinarySingleNaN Sterbenz.
From Verif Require Import Base FloatModel FloatSpec FloatProofs FloatProps FloatOrderProps.
Import ListNotations.
Local Open Scope R_scope.

Section Format.
Context (prec emax : Z) {Hprec : Prec_gt_0 prec} {Hmax : Prec_lt_emax prec emax}.
Notation fl := (binary_float prec emax).
Notation rnd := (round radix2 (FLT_exp (3 - emax - prec) prec) ZnearestE).
Notation fmt := (generic_format radix2 (FLT_exp (3 - emax - prec) prec)).
Notation val := (@B2R prec emax).
Notation fin := (@is_finite prec emax).
Notation u := (roundoff prec).
Notation add := (fadd prec emax).
Notation sub := (fsub prec emax).
Notation div := (fdiv prec emax).
Notation zero := (fzero prec emax).

Lemma loop_length x inc n : length (fspace_loop prec emax x inc n) = n.
Proof. revert x. induction n as [|n IH]; intros x; cbn; auto. Qed.
Lemma loop_nth x inc n k : (k < n)%nat -> nth k (fspace_loop prec emax x inc n) zero = fold_left add (repeat inc k) x.
Proof.
  revert x k. induction n as [|n IH]; intros x k L; [lia|]. destruct k as [|k]; [reflexivity|]. cbn [fspace_loop nth repeat fold_left]. apply IH. lia.
Qed.
Lemma steps_error x inc k : finite (fold_left add (repeat inc k) x) ->
  finite x /\ Rabs (val (fold_left add (repeat inc k) x) - (val x + INR k * val inc)) <= ((1 + u) ^ k - 1) * (Rabs (val x) + INR k * Rabs (val inc)).
Proof.
  induction k as [|k IH]; intros F.
  - cbn in F |- *. split; [exact F|]. replace (val x - (val x + 0 * val inc)) with 0 by ring. rewrite Rabs_R0. lra.
  - replace (S k) with (k + 1)%nat in * by lia. rewrite repeat_app, fold_left_app in *. cbn [repeat fold_left] in *.
    set (t := fold_left add (repeat inc k) x) in *. destruct (add_fin prec emax t inc F) as [F1 [F2 V]]. destruct (IH F1) as [G E]. split; [exact G|]. rewrite V.
    rewrite Nat.add_1_r, S_INR. cbn [pow]. pose proof (add_err prec emax (val t) (val inc) (fmt_val prec emax _) (fmt_val prec emax _)) as D. rewrite <- (roundoff_u prec) in D.
    pose proof (roundoff_pos prec) as U. pose proof (pow_ge_1 prec k) as K. pose proof (pos_INR k) as I. pose proof (Rabs_pos (val x)) as X. pose proof (Rabs_pos (val inc)) as Y.
    set (c := (1 + u) ^ k) in *. set (a := Rabs (val x)) in *. set (b := Rabs (val inc)) in *.
    assert (S1 : Rabs (val t + val inc) <= c * (a + INR k * b) + b).
    { replace (val t + val inc) with ((val t - (val x + INR k * val inc)) + (val x + INR k * val inc + val inc)) by ring.
      eapply Rle_trans; [apply Rabs_triang|]. assert (Rabs (val x + INR k * val inc + val inc) <= a + INR k * b + b); [|lra].
      eapply Rle_trans; [apply Rabs_triang|]. apply Rplus_le_compat_r. eapply Rle_trans; [apply Rabs_triang|]. rewrite Rabs_mult, (Rabs_right (INR k)) by lra. unfold a, b. lra. }
    replace (rnd (val t + val inc) - (val x + (INR k + 1) * val inc)) with ((rnd (val t + val inc) - (val t + val inc)) + (val t - (val x + INR k * val inc))) by ring.
    eapply Rle_trans; [apply Rabs_triang|]. assert (u * Rabs (val t + val inc) <= u * (c * (a + INR k * b) + b)) by (apply Rmult_le_compat_l; lra).
    assert (0 <= (c - 1) * b) by (apply Rmult_le_pos; lra). assert (0 <= u * ((c - 1) * b)) by (apply Rmult_le_pos; lra). nra.
Qed.
(** C121: n points, the first one exact; point k is off the arithmetic progression by at most the stated
    amount, and the increment is the exact step up to three roundings. *)
Theorem C121_linspace x1 x2 n : (1 < n)%nat -> (Z.of_nat n <= 2 ^ prec)%Z ->
  let out := f_linspace prec emax x1 x2 n in
  length out = n /\ nth 0 out zero = x1 /\
  forall k, (0 < k < n)%nat -> finite (nth k out zero) -> exists inc : fl,
    finite inc /\
    Rabs (val inc - (val x2 - val x1) / INR (n - 1)) <= ((1 + u) ^ 2 - 1) * Rabs ((val x2 - val x1) / INR (n - 1)) + smallest prec emax / 2 /\
    Rabs (val (nth k out zero) - (val x1 + INR k * val inc)) <= ((1 + u) ^ k - 1) * (Rabs (val x1) + INR k * Rabs (val inc)).
Proof.
  intros N B out. unfold out, f_linspace. set (inc := div (sub x2 x1) (sub (of_nat prec emax n) (of_Z prec emax 1))).
  split; [apply loop_length|]. split; [destruct n; [lia|reflexivity]|]. intros k K F. exists inc. rewrite loop_nth in * by lia.
  destruct (steps_error x1 inc k F) as [_ E].
  assert (Fi : finite inc). { destruct k as [|k]; [lia|]. replace (S k) with (k + 1)%nat in F by lia. rewrite repeat_app, fold_left_app in F. cbn [repeat fold_left] in F. apply (add_fin prec emax) in F. apply F. }
  split; [exact Fi|]. split; [|exact E].
  destruct (of_nat_exact prec emax n B) as [Fn Vn]. destruct (of_nat_exact prec emax 1 ltac:(lia)) as [F1 V1]. unfold of_nat at 1 in F1. unfold of_nat at 1 in V1. change (Z.of_nat 1) with 1%Z in F1, V1.
  assert (Vc : finite (sub (of_nat prec emax n) (of_Z prec emax 1)) /\ val (sub (of_nat prec emax n) (of_Z prec emax 1)) = INR (n - 1)).
  { assert (R1 : rnd (val (of_nat prec emax n) - val (of_Z prec emax 1)) = INR (n - 1)).
    { rewrite Vn, V1, <- minus_INR by lia. apply (rnd_id prec emax). rewrite INR_IZR_INZ. apply (fmt_small prec emax). lia. }
    destruct (of_nat_exact prec emax (n - 1) ltac:(lia)) as [Fm Vm].
    destruct (sub_cases prec emax _ _ Fn F1) as [[_ [V G]]|[O _]]; [rewrite R1 in V; split; [exact G|exact V]|].
    exfalso. rewrite R1, <- Vm in O. pose proof (val_bound prec emax (of_nat prec emax (n - 1))). lra. }
  destruct Vc as [Fc Vc]. unfold inc in Fi. destruct (div_fin prec emax _ _ Fc Fi) as [Fs [_ Vi]]. destruct (sub_fin prec emax _ _ Fs) as [Fx2 [Fx1 Vs]].
  unfold inc. rewrite Vi, Vc, Vs. set (m := INR (n - 1)). assert (M : 0 < m) by (apply lt_0_INR; lia).
  pose proof (rnd_err prec emax (rnd (val x2 - val x1) / m)) as D. rewrite <- (roundoff_u prec), <- (smallest_tiny prec emax) in D.
  pose proof (add_err prec emax (val x2) (- val x1) (fmt_val prec emax _) (generic_format_opp _ _ _ (fmt_val prec emax _))) as D2. rewrite <- (roundoff_u prec) in D2.
  change (val x2 + - val x1) with (val x2 - val x1) in D2. set (d := val x2 - val x1) in *. set (r := rnd d) in *. pose proof (roundoff_pos prec) as U.
  assert (Q : forall z, Rabs (z / m) = Rabs z / m) by (intros z; unfold Rdiv; rewrite Rabs_mult, (Rabs_right (/ m)); auto; left; apply Rinv_0_lt_compat; auto).
  rewrite Q in D. rewrite Q. assert (I : 0 < / m) by (apply Rinv_0_lt_compat; auto). unfold Rdiv in *.
  replace (rnd (r * / m) - d * / m) with ((rnd (r * / m) - r * / m) + (r - d) * / m) by ring. eapply Rle_trans; [apply Rabs_triang|].
  rewrite (Rabs_mult (r - d)), (Rabs_right (/ m)) by lra.
  assert (r1 : Rabs r <= (1 + u) * Rabs d) by (replace r with ((r - d) + d) by ring; eapply Rle_trans; [apply Rabs_triang|]; lra).
  assert (r2 : Rabs r * / m <= (1 + u) * Rabs d * / m) by (apply Rmult_le_compat_r; lra).
  assert (r3 : Rabs (r - d) * / m <= u * Rabs d * / m) by (apply Rmult_le_compat_r; lra).
  assert (r4 : u * (Rabs r * / m) <= u * ((1 + u) * Rabs d * / m)) by (apply Rmult_le_compat_l; lra). cbn [pow]. nra.
Qed.

(** C122: differences.  Each is one rounding of the exact difference, and exact when the neighbours are within a factor of
    two of each other. *)
Lemma diff_nth x l k : (k < length l)%nat -> nth k (fdiff_from prec emax x l) zero = sub (nth k l zero) (nth k (x :: l) zero).
Proof.
  revert x k. induction l as [|y l IH]; intros x k H; cbn [length] in H; [lia|]. destruct k as [|k]; [reflexivity|]. cbn [fdiff_from nth]. rewrite IH by lia. reflexivity.
Qed.
Lemma diff_length x l : length (fdiff_from prec emax x l) = length l.
Proof. revert x. induction l as [|y l IH]; intros x; cbn; auto. Qed.
Theorem C122_derivative l : l <> [] ->
  let out := f_derivative prec emax l in
  length out = length l /\ nth 0 out zero = nth 0 l zero /\
  forall k, (S k < length l)%nat -> finite (nth k l zero) -> finite (nth (S k) l zero) ->
    let x := val (nth k l zero) in let y := val (nth (S k) l zero) in let d := nth (S k) out zero in
    (finite d -> Rabs (val d - (y - x)) <= u * Rabs (y - x)) /\
    (0 <= x -> 0 <= y -> finite d) /\ (x <= 0 -> y <= 0 -> finite d) /\
    (x / 2 <= y <= 2 * x -> finite d /\ val d = y - x) /\
    (finite d -> val d = 0 -> y = x).
Proof.
  destruct l as [|a l]; [congruence|]. intros _. cbn zeta. split; [cbn; rewrite diff_length; reflexivity|]. split; [reflexivity|]. intros k K Fx Fy.
  change (f_derivative prec emax (a :: l)) with (a :: fdiff_from prec emax a l). cbn [length] in K. change (nth (S k) (a :: fdiff_from prec emax a l) zero) with (nth k (fdiff_from prec emax a l) zero). change (nth (S k) (a :: l) zero) with (nth k l zero) in *. rewrite diff_nth by lia.
  set (fx := nth k (a :: l) zero) in *. set (fy := nth k l zero) in *. set (x := val fx). set (y := val fy).
  assert (E0 : rnd (y - x) = 0 -> y = x).
  { intros H. pose proof (add_err prec emax y (- x) (fmt_val prec emax fy) (generic_format_opp _ _ _ (fmt_val prec emax fx))) as D. change (y + - x) with (y - x) in D. rewrite H in D.
    assert (U1 : unit_roundoff prec <= / 2).
    { unfold unit_roundoff. change (/ 2) with (bpow radix2 (-1)). apply bpow_le. pose proof Hprec as P. unfold Prec_gt_0 in P. lia. }
    rewrite Rminus_0_l, Rabs_Ropp in D. pose proof (Rabs_pos (y - x)) as A. destruct (Req_dec (y - x) 0) as [Z|Z]; [lra|]. pose proof (Rabs_pos_lt _ Z). nra. }
  assert (SF : 0 <= x /\ 0 <= y \/ x <= 0 /\ y <= 0 -> finite (sub fy fx)).
  { intros S. destruct (sub_cases prec emax fy fx Fy Fx) as [[_ [_ F]]|[O _]]; [exact F|exfalso]. fold x y in O.
    assert (Bo : Rabs (rnd (y - x)) < bpow radix2 emax); [|lra]. pose proof (val_bound prec emax fx) as B1. pose proof (val_bound prec emax fy) as B2. fold x in B1. fold y in B2.
    assert (W : Rabs (rnd (y - x)) <= Rabs x \/ Rabs (rnd (y - x)) <= Rabs y); [|lra].
    assert (RX : forall z, Rabs z = rnd (Rabs z) -> Rabs (y - x) <= Rabs z -> Rabs (rnd (y - x)) <= Rabs z).
    { intros z Ez Hz. apply Rabs_le_inv in Hz. apply Rabs_le. rewrite Ez. split; [rewrite <- (rnd_opp prec emax)|]; apply (rnd_le prec emax); lra. }
    assert (Gx : Rabs x = rnd (Rabs x)) by (symmetry; apply (rnd_id prec emax); apply generic_format_abs; apply (fmt_val prec emax)).
    assert (Gy : Rabs y = rnd (Rabs y)) by (symmetry; apply (rnd_id prec emax); apply generic_format_abs; apply (fmt_val prec emax)).
    destruct (Rle_dec (Rabs x) (Rabs y)) as [Lxy|Lxy]; [right; apply RX; auto|left; apply RX; auto];
      unfold Rabs in *; destruct (Rcase_abs x), (Rcase_abs y), (Rcase_abs (y - x)); lra. }
  split; [intros F; destruct (sub_fin prec emax _ _ F) as [_ [_ V]]; rewrite V; fold x y; rewrite (roundoff_u prec);
    apply (add_err prec emax y (- x) (fmt_val prec emax fy) (generic_format_opp _ _ _ (fmt_val prec emax fx)))|].
  split; [intros; apply SF; auto|]. split; [intros; apply SF; auto|]. split.
  - intros [H1 H2]. assert (P : 0 <= x /\ 0 <= y) by (split; lra). assert (F : finite (sub fy fx)) by (apply SF; auto). split; [exact F|].
    destruct (sub_fin prec emax _ _ F) as [_ [_ V]]. rewrite V. fold x y. apply (rnd_id prec emax). apply sterbenz; [apply FLT_exp_valid; exact Hprec|apply FLT_exp_monotone|apply (fmt_val prec emax)|apply (fmt_val prec emax)|lra].
  - intros F V. destruct (sub_fin prec emax _ _ F) as [_ [_ W]]. apply E0. rewrite V in W. symmetry. exact W.
Qed.
End Format.

(** The last of eleven points from 0 to 1 is not 1. *)
Theorem C121_last_refuted : ~ (forall (x1 x2 : double) n, finite x1 -> finite x2 -> (1 < n)%nat -> B2SF (last (f_linspace 53 1024 x1 x2 n) x1) = B2SF x2).
Proof. intros H. specialize (H (dbl 0) (dbl 1) 11%nat ltac:(vm_compute; reflexivity) ltac:(vm_compute; reflexivity) ltac:(lia)). vm_compute in H. discriminate H. Qed.
(** A point can pass the end. *)
Theorem C121_within_refuted : ~ (forall (x1 x2 : double) n, finite x1 -> finite x2 -> lt x1 x2 -> (1 < n)%nat -> le (last (f_linspace 53 1024 x1 x2 n) x1) x2).
Proof.
  intros H. specialize (H (dbl 0) (dbl 1) 10%nat ltac:(vm_compute; reflexivity) ltac:(vm_compute; reflexivity) ltac:(vm_compute; reflexivity) ltac:(lia)). vm_compute in H. discriminate H.
Qed.
(** Adding the differences up does not give the samples back. *)
Theorem C122_sum_of_differences_refuted : ~ (forall l : list double, all_finite l -> all_finite (f_derivative 53 1024 l) -> B2SF (f_sum 53 1024 (f_derivative 53 1024 l)) = B2SF (last l (dbl 0))).
Proof. intros H. specialize (H [dbl 1; ratio 1 10; ratio 3 10] ltac:(repeat constructor) ltac:(repeat constructor)). vm_compute in H. discriminate H. Qed.
Example C121_example : (Z.of_nat 5 <= 2 ^ 53)%Z /\ finite (nth 3 (f_linspace 53 1024 (ratio 1 3) (dbl 7) 5) (dbl 0)).
Proof. split; vm_compute; [discriminate|reflexivity]. Qed.
Example C122_example : let l := [ratio 1 3; ratio 1 2; dbl (-4)] in finite (nth 0 l (dbl 0)) /\ finite (nth 1 l (dbl 0)) /\
  le (ratio 1 6) (nth 1 l (dbl 0)) /\ le (nth 1 l (dbl 0)) (ratio 2 3).
Proof. repeat split; vm_compute; reflexivity. Qed.
Print Assumptions C121_linspace.
Print Assumptions C122_derivative.
Print Assumptions C121_last_refuted.
Print Assumptions C121_within_refuted.
Print Assumptions C122_sum_of_differences_refuted.
