(** Energies and dispersions in IEEE formats. *)
From Coq Require Import ZArith Reals List Bool Lia Lra Psatz.
From Flocq Require Import Core BinarySingleNaN.
From Verif Require Import Base FloatModel FloatSpec FloatProofs FloatProps FloatOrderProps.
Import ListNotations.
Local Open Scope R_scope.

Section Format.
Context (prec emax : Z) {Hprec : Prec_gt_0 prec} {Hmax : Prec_lt_emax prec emax}.
Notation fl := (binary_float prec emax).
Notation rnd := (round radix2 (FLT_exp (3 - emax - prec) prec) ZnearestE).
Notation val := (@B2R prec emax).
Notation fin := (@is_finite prec emax).
Notation u := (roundoff prec).
Notation lev := (level prec emax).
Notation add := (fadd prec emax).
Notation sub := (fsub prec emax).
Notation mul := (fmul prec emax).
Notation div := (fdiv prec emax).
Notation zero := (fzero prec emax).

Definition nn (x : fl) : Prop := is_nan x = false /\ 0 <= lev x.
Lemma nn_le x : nn x <-> le zero x.
Proof. rewrite (le_iff prec emax). unfold nn. change (lev zero) with 0. change (is_nan zero) with false. tauto. Qed.
Lemma nn_fin x : fin x = true -> 0 <= val x -> nn x.
Proof. intros F H. split; [apply fin_not_nan; auto|rewrite level_fin; auto]. Qed.
Lemma nn_inf : nn (B754_infinity false).
Proof. split; [reflexivity|]. cbn. left. apply bpow_gt_0. Qed.
Lemma nn_cases x : nn x -> x = B754_infinity false \/ (fin x = true /\ 0 <= val x).
Proof.
  intros [N L]. destruct x as [s|[]| |s m e H]; try discriminate; auto.
  exfalso. cbn in L. pose proof (bpow_gt_0 radix2 emax). lra.
Qed.
Lemma sign_val (x : fl) : fin x = true -> (Bsign x = true -> val x <= 0) /\ (Bsign x = false -> 0 <= val x).
Proof.
  destruct x as [s|s| |s m e H]; intros F; try discriminate F; cbn; [lra|]. split; intros ->; cbn.
  - apply F2R_le_0. cbn. lia.
  - apply F2R_ge_0. cbn. lia.
Qed.
Lemma add_nn x y : nn x -> nn y -> nn (add x y).
Proof.
  intros X Y. destruct (nn_cases x X) as [->|[Fx Vx]]; [destruct (nn_cases y Y) as [->|[Fy Vy]]|destruct (nn_cases y Y) as [->|[Fy Vy]]].
  - apply nn_inf.
  - destruct y as [?|?| |]; try discriminate Fy; apply nn_inf.
  - destruct x as [?|?| |]; try discriminate Fx; apply nn_inf.
  - destruct (add_cases prec emax x y Fx Fy) as [[_ [V F]]|[O [E S]]].
    + apply nn_fin; auto. rewrite V. apply rnd_pos; auto. lra.
    + rewrite E. destruct (Bsign x) eqn:Sx; [|apply nn_inf]. exfalso.
      pose proof (proj1 (sign_val x Fx) Sx). pose proof (proj1 (sign_val y Fy) (eq_sym S)).
      replace (val x + val y) with 0 in O by lra. rewrite (rnd_0 prec emax), Rabs_R0 in O. pose proof (bpow_gt_0 radix2 emax). lra.
Qed.
Lemma sq_nn x : is_nan x = false -> nn (mul x x).
Proof.
  intros N. destruct (fin x) eqn:F.
  - destruct (mul_cases prec emax x x F F) as [[_ [V G]]|[_ E]].
    + apply nn_fin; auto. rewrite V. apply rnd_pos; auto. nra.
    + rewrite E, xorb_nilpotent. apply nn_inf.
  - destruct x as [?|[]| |]; try discriminate; apply nn_inf.
Qed.
Lemma div_nn x n : (0 < n)%nat -> (Z.of_nat n <= 2 ^ (emax - 1))%Z -> nn x -> nn (div x (of_nat prec emax n)).
Proof.
  intros N B X. destruct (of_nat_pos prec emax n N B) as [Fn Vn]. set (c := of_nat prec emax n) in *.
  assert (Sc : Bsign c = false). { destruct (Bsign c) eqn:E; auto. pose proof (proj1 (sign_val c Fn) E). lra. }
  destruct (nn_cases x X) as [->|[Fx Vx]].
  - destruct c as [?|?| |s m e H]; try discriminate Fn; [cbn in Vn; lra|]. cbn in Sc. subst s. apply nn_inf.
  - destruct (div_cases prec emax x c Fx ltac:(lra)) as [[_ [V [G _]]]|[O E]].
    + apply nn_fin; auto. rewrite V. apply rnd_pos; auto. apply Rmult_le_pos; auto. left. apply Rinv_0_lt_compat. lra.
    + rewrite E, Sc. destruct (Bsign x) eqn:Sx; [|apply nn_inf]. exfalso. pose proof (proj1 (sign_val x Fx) Sx).
      replace (val x / val c) with 0 in O by (replace (val x) with 0 by lra; field; lra).
      rewrite (rnd_0 prec emax), Rabs_R0 in O. pose proof (bpow_gt_0 radix2 emax). lra.
Qed.
Lemma sqrt_nn x : nn x -> nn (fsqrt prec emax x) /\ (fin x = true -> fin (fsqrt prec emax x) = true /\ val (fsqrt prec emax x) = rnd (sqrt (val x))).
Proof.
  intros X. destruct (Bsqrt_correct prec emax Hprec Hmax mode_NE x) as [V [F _]]. fold (fsqrt prec emax x) in *.
  destruct (nn_cases x X) as [->|[Fx Vx]]; [split; [apply nn_inf|discriminate]|].
  assert (G : fin (fsqrt prec emax x) = true).
  { rewrite F. destruct x as [s|s| |s m e H]; try discriminate Fx; auto. destruct s; auto. exfalso.
    pose proof (proj1 (sign_val (B754_finite true m e H) eq_refl) eq_refl). destruct (proj2 (val_nonzero prec emax (B754_finite true m e H)) ltac:(eauto)) as [_ Z]. apply Z. lra. }
  split; [|intros _; split; auto]. apply nn_fin; auto. rewrite V. apply rnd_pos; auto. apply sqrt_pos.
Qed.

Lemma add_not_nan (a x : fl) : is_nan a = false -> fin x = true -> is_nan (add a x) = false.
Proof.
  intros N F. destruct (fin a) eqn:Fa.
  - destruct (add_cases prec emax a x Fa F) as [[_ [_ G]]|[_ [E _]]]; [apply fin_not_nan; exact G|rewrite E; reflexivity].
  - destruct a as [?|?| |]; try discriminate; destruct x as [?|?| |]; try discriminate; reflexivity.
Qed.
Lemma sub_not_nan (a x : fl) : is_nan a = false -> fin x = true -> is_nan (sub x a) = false.
Proof.
  intros N F. destruct (fin a) eqn:Fa.
  - destruct (sub_cases prec emax x a F Fa) as [[_ [_ G]]|[_ [E _]]]; [apply fin_not_nan; exact G|rewrite E; reflexivity].
  - destruct a as [?|[]| |]; try discriminate; destruct x as [?|?| |]; try discriminate; reflexivity.
Qed.
Lemma sum_not_nan l : all_finite l -> is_nan (f_sum prec emax l) = false.
Proof.
  induction l as [|x l IH] using rev_ind; intros A; [reflexivity|]. apply Forall_app in A. destruct A as [A X]. inversion X; subst.
  rewrite (sum_snoc prec emax). apply add_not_nan; auto.
Qed.
Lemma mean_not_nan l : l <> [] -> (Z.of_nat (length l) <= 2 ^ (emax - 1))%Z -> all_finite l -> is_nan (f_mean prec emax l) = false.
Proof.
  intros N B A. unfold f_mean. pose proof (sum_not_nan l A) as S. assert (P : (0 < length l)%nat) by (destruct l; [congruence|cbn; lia]).
  destruct (of_nat_pos prec emax (length l) P B) as [Fn Vn]. set (c := of_nat prec emax (length l)) in *. set (s := f_sum prec emax l) in *.
  destruct (fin s) eqn:Fs.
  - destruct (div_cases prec emax s c Fs ltac:(lra)) as [[_ [_ [G _]]]|[_ E]]; [apply fin_not_nan; exact G|rewrite E; reflexivity].
  - destruct s as [?|?| |]; try discriminate; destruct c as [?|?| |]; try discriminate; reflexivity.
Qed.
Lemma inner_nn l i : Forall (fun x : fl => is_nan x = false) l -> nn i -> nn (f_inner prec emax l i).
Proof.
  unfold f_inner. revert i. induction l as [|x l IH]; intros i A I; cbn [fold_left]; auto. inversion A; subst. apply IH; auto. apply add_nn; auto. apply sq_nn; auto.
Qed.
Lemma one_nn : nn (of_Z prec emax 1).
Proof.
  assert (B : (Z.of_nat 1 <= 2 ^ (emax - 1))%Z).
  { pose proof Hprec as P. pose proof Hmax as M. unfold Prec_gt_0 in P. unfold Prec_lt_emax in M. apply (Z.pow_le_mono_r 2 0 (emax - 1)); lia. }
  destruct (of_nat_pos prec emax 1 ltac:(lia) B) as [F V]. unfold of_nat in V. change (Z.of_nat 1) with 1%Z in V. apply nn_fin; [exact F|lra].
Qed.

(** C119: for finite samples none of these is NaN or negative. *)
Theorem C119_no_nan l : l <> [] -> all_finite l -> (Z.of_nat (length l) <= 2 ^ (emax - 1))%Z ->
  le zero (f_variance prec emax l) /\ le zero (f_stddev prec emax l) /\ le zero (f_energy prec emax l) /\
  le zero (f_power prec emax l) /\ le zero (f_rms prec emax l) /\ le zero (f_rssq prec emax l) /\ ~ nan (f_mean prec emax l).
Proof.
  intros N A B. assert (P : (0 < length l)%nat) by (destruct l; [congruence|cbn; lia]).
  assert (A' : Forall (fun x : fl => is_nan x = false) l) by (eapply Forall_impl; [|exact A]; intros x F; apply fin_not_nan; exact F).
  assert (Z : nn zero) by (split; [reflexivity|cbn; lra]). pose proof (mean_not_nan l N B A) as M.
  assert (V : nn (f_variance prec emax l)).
  { unfold f_variance. cbv zeta. apply div_nn; auto. generalize (f_mean prec emax l) M. intros m Nm. clear B N P A' M.
    assert (G : forall s, nn s -> nn (fold_left (fun sum current => add sum (mul (sub current m) (sub current m))) l s)); [|apply G; exact Z].
    induction A as [|x l F A IH]; intros s S; cbn [fold_left]; auto. apply IH. apply add_nn; auto. apply sq_nn. apply sub_not_nan; auto. }
  rewrite <- !nn_le. split; [exact V|]. split; [apply sqrt_nn; exact V|]. split; [apply inner_nn; auto|]. split; [apply div_nn; auto; apply inner_nn; auto|].
  split; [apply sqrt_nn; apply div_nn; auto; apply inner_nn; auto; apply one_nn|]. split; [apply sqrt_nn; apply inner_nn; auto|]. apply not_nan. exact M.
Qed.

(** C119: the error of the energy. *)
Definition squares (l : list fl) : R := fold_right Rplus 0 (map (fun x => B2R x ^ 2) l).
Lemma squares_app l x : squares (l ++ [x]) = squares l + val x ^ 2.
Proof. unfold squares. induction l as [|y l IH]; cbn [app map fold_right]; [ring|]. rewrite IH. ring. Qed.
Lemma squares_pos l : 0 <= squares l.
Proof. unfold squares. induction l as [|y l IH]; cbn [map fold_right]; [lra|]. pose proof (pow2_ge_0 (val y)). lra. Qed.
Lemma inner_snoc l x i : f_inner prec emax (l ++ [x]) i = add (f_inner prec emax l i) (mul x x).
Proof. unfold f_inner. rewrite fold_left_app. reflexivity. Qed.
Lemma tinyS : 0 < smallest prec emax.
Proof. rewrite smallest_tiny by auto. apply tiny_pos. Qed.
Theorem C119_energy_error l : finite (f_energy prec emax l) ->
  all_finite l /\
  Rabs (val (f_energy prec emax l) - squares l) <=
    ((1 + u) ^ S (length l) - 1) * squares l + INR (length l) * (1 + u) ^ length l * (smallest prec emax / 2).
Proof.
  unfold f_energy. set (t := smallest prec emax / 2). assert (T : 0 < t) by (unfold t; pose proof tinyS; lra).
  induction l as [|x l IH] using rev_ind; intros F.
  - split; [constructor|]. cbn. rewrite Rminus_0_r, Rabs_R0. lra.
  - rewrite inner_snoc in *. destruct (add_fin prec emax _ _ F) as [F1 [F2 V]]. destruct (mul_fin prec emax _ _ F2) as [Fx [_ Vq]]. destruct (IH F1) as [A E].
    split; [apply Forall_app; split; auto|]. rewrite V, Vq, squares_app, app_length. cbn [length]. rewrite Nat.add_1_r.
    set (n := length l) in *. set (s := val (f_inner prec emax l zero)) in *. set (q := rnd (val x * val x)) in *.
    pose proof (add_err prec emax s q (fmt_val prec emax _) ltac:(rewrite <- Vq; apply (fmt_val prec emax))) as D. rewrite <- (roundoff_u prec) in D.
    pose proof (rnd_err prec emax (val x * val x)) as D2. rewrite <- (roundoff_u prec), <- (smallest_tiny prec emax) in D2. fold q in D2. fold t in D2.
    rewrite (Rabs_right (val x * val x)) in D2 by nra. replace (val x * val x) with (val x ^ 2) in D2 by ring.
    set (y := val x ^ 2) in *. assert (Y : 0 <= y) by apply pow2_ge_0. pose proof (squares_pos l) as Q. set (z := squares l) in *.
    pose proof (roundoff_pos prec) as U. pose proof (pow_ge_1 prec n) as K. rewrite S_INR. pose proof (pos_INR n) as I.
    assert (S1 : Rabs (s + q) <= z + Rabs (s - z) + (y + Rabs (q - y))).
    { replace (s + q) with ((s - z) + (q - y) + (z + y)) by ring. eapply Rle_trans; [apply Rabs_triang|]. rewrite (Rabs_right (z + y)) by lra. pose proof (Rabs_triang (s - z) (q - y)). lra. }
    assert (S2 : Rabs (rnd (s + q) - (z + y)) <= u * Rabs (s + q) + Rabs (s - z) + Rabs (q - y)).
    { replace (rnd (s + q) - (z + y)) with ((rnd (s + q) - (s + q)) + ((s - z) + (q - y))) by ring. eapply Rle_trans; [apply Rabs_triang|]. pose proof (Rabs_triang (s - z) (q - y)). lra. }
    assert (S3 : u * Rabs (s + q) <= u * (z + Rabs (s - z) + (y + Rabs (q - y)))) by (apply Rmult_le_compat_l; lra).
    set (a := Rabs (s - z)) in *. set (b := Rabs (q - y)) in *. cbn [pow] in E |- *. set (k := (1 + u) ^ n) in *.
    assert (a' : (1 + u) * a <= (1 + u) * (((1 + u) * k - 1) * z + INR n * k * t)) by (apply Rmult_le_compat_l; lra).
    assert (b' : (1 + u) * b <= (1 + u) * (u * y + t)) by (apply Rmult_le_compat_l; lra).
    assert (c1 : (1 + u) * (u * y) + u * y <= ((1 + u) * ((1 + u) * k) - 1) * y).
    { replace ((1 + u) * (u * y) + u * y) with (((1 + u) * (1 + u) - 1) * y) by ring. apply Rmult_le_compat_r; auto. assert ((1 + u) * (1 + u) * 1 <= (1 + u) * (1 + u) * k) by (apply Rmult_le_compat_l; nra). lra. }
    assert (c2 : (1 + u) * t <= (1 + u) * k * t) by (apply Rmult_le_compat_r; [lra|]; rewrite <- (Rmult_1_r (1 + u)) at 1; apply Rmult_le_compat_l; lra).
    nra.
Qed.
(** The root adds one relative rounding. *)
Theorem C119_rssq_error l : finite (f_rssq prec emax l) ->
  Rabs (val (f_rssq prec emax l) - sqrt (val (f_energy prec emax l))) <= u * sqrt (val (f_energy prec emax l)) + smallest prec emax / 2.
Proof.
  unfold f_rssq, f_energy. set (e := f_inner prec emax l zero). intros F. destruct (Bsqrt_correct prec emax Hprec Hmax mode_NE e) as [V _].
  change (val (fsqrt prec emax e) = rnd (sqrt (val e))) in V. rewrite V. pose proof (rnd_err prec emax (sqrt (val e))) as D.
  rewrite <- (roundoff_u prec), <- (smallest_tiny prec emax) in D. rewrite (Rabs_right (sqrt (val e))) in D by (apply Rle_ge, sqrt_pos). exact D.
Qed.
End Format.

(** The root of the sum of squares of a sample that is not zero can be zero, and infinite when the
    exact value is the sample itself. *)
Definition small : double := ratio 1 (2 ^ 600).
Definition large : double := dbl (2 ^ 600).
Theorem C119_rssq_zero_refuted : ~ (forall l : list double, all_finite l -> (exists x, In x l /\ lt (dbl 0) x) -> lt (dbl 0) (f_rssq 53 1024 l)).
Proof.
  intros H. specialize (H [small] ltac:(repeat constructor)). assert (K : lt (dbl 0) (f_rssq 53 1024 [small])); [|vm_compute in K; discriminate K].
  apply H. exists small. split; [left; reflexivity|]. vm_compute. reflexivity.
Qed.
Theorem C119_rssq_finite_refuted : ~ (forall x : double, finite x -> finite (f_rssq 53 1024 [x])).
Proof. intros H. specialize (H large ltac:(vm_compute; reflexivity)). vm_compute in H. discriminate H. Qed.
(** Equal samples need not have variance zero. *)
Theorem C119_variance_constant_refuted : ~ (forall (x : double) n, finite x -> (0 < n)%nat -> le (f_variance 53 1024 (repeat x n)) (dbl 0)).
Proof. intros H. specialize (H (ratio 1 10) 3%nat ltac:(vm_compute; reflexivity) ltac:(lia)). vm_compute in H. discriminate H. Qed.
Example C119_example : let l := [ratio 1 10; top; ratio (-7) 3] in l <> [] /\ all_finite l /\ (Z.of_nat (length l) <= 2 ^ (1024 - 1))%Z.
Proof. split; [discriminate|]. split; [repeat constructor|]. vm_compute. discriminate. Qed.
Example C119_example2 : finite (f_energy 53 1024 [ratio 1 10; ratio (-7) 3]) /\ finite (f_rssq 53 1024 [ratio 1 10; ratio (-7) 3]).
Proof. split; vm_compute; reflexivity. Qed.
Print Assumptions C119_no_nan.
Print Assumptions C119_energy_error.
Print Assumptions C119_rssq_error.
Print Assumptions C119_rssq_zero_refuted.
Print Assumptions C119_rssq_finite_refuted.
Print Assumptions C119_variance_constant_refuted.
