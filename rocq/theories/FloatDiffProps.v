(** C141: the average difference functions, the peaks, the even moments and the decrease as computed. *)
From Coq Require Import ZArith Reals List Bool Lia Lra Psatz.
From Flocq Require Import Core BinarySingleNaN Relative.
From Verif Require Import Base FloatModel FloatSpec FloatProofs FloatProps FloatOrderProps FloatEnergyProps FloatClockProps FloatNumModel FloatFeatProps FloatCentroidProps FloatMovingProps FloatDiffModel.
Import ListNotations.
Local Open Scope R_scope.

(** The exact average difference functions at lag [k] of the numbers held by a range. *)
Definition differences {prec emax} (l : list (binary_float prec emax)) (k : nat) : list R :=
  map (fun j => B2R (nth j l (B754_zero false)) - B2R (nth (j + k) l (B754_zero false))) (seq 0 (length l - k)).
Definition mean_abs_difference {prec emax} (l : list (binary_float prec emax)) (k : nat) : R :=
  fold_right Rplus 0 (map Rabs (differences l k)) / INR (length l).
Definition mean_square_difference {prec emax} (l : list (binary_float prec emax)) (k : nat) : R :=
  fold_right Rplus 0 (map (fun d => d ^ 2) (differences l k)) / INR (length l).

Section Format.
Context (prec emax : Z) {Hprec : Prec_gt_0 prec} {Hmax : Prec_lt_emax prec emax}.
Notation fl := (binary_float prec emax).
Notation rnd := (round radix2 (FLT_exp (3 - emax - prec) prec) ZnearestE).
Notation fmt := (generic_format radix2 (FLT_exp (3 - emax - prec) prec)).
Notation val := (@B2R prec emax).
Notation u := (roundoff prec).
Notation eta := (smallest prec emax).
Notation zero := (fzero prec emax).
Notation add := (fadd prec emax).
Notation sub := (fsub prec emax).
Notation mul := (fmul prec emax).
Notation div := (fdiv prec emax).
Notation lev := (level prec emax).

(** The computed differences. *)
Let gap (l : list fl) (k : nat) : list fl := map (fun j => sub (nth j l zero) (nth (j + k) l zero)) (seq 0 (length l - k)).
Lemma load_nth (l : list fl) j : (j < length l)%nat -> load l j = Ok (nth j l zero).
Proof. intros H. unfold load. rewrite (nth_error_nth' l zero H). reflexivity. Qed.
Lemma inner_ok d l i k : forall j acc, (j + k + i <= length l)%nat ->
  fdf_inner prec emax d l i j k acc = Ok (fold_left add (map (fun j => d (nth j l zero) (nth (j + i) l zero)) (seq j k)) acc).
Proof.
  induction k as [|k IH]; intros j acc H; [reflexivity|]. cbn [fdf_inner seq map fold_left]. rewrite !load_nth by lia. cbn [bind]. apply IH. lia.
Qed.
Lemma outer_ok d l k : forall i, (i + k <= length l)%nat ->
  fdf_outer prec emax d l i k =
  Ok (map (fun i => div (f_sum prec emax (map (fun j => d (nth j l zero) (nth (j + i) l zero)) (seq 0 (length l - i)))) (of_nat prec emax (length l))) (seq i k)).
Proof.
  induction k as [|k IH]; intros i H; [reflexivity|]. cbn [fdf_outer seq map]. rewrite inner_ok by lia. cbn [bind]. rewrite IH by lia. reflexivity.
Qed.
Lemma amdf_ok l : l <> [] -> f_amdf prec emax l = Ok (map (fun k => div (f_sum prec emax (map (fabs prec emax) (gap l k))) (of_nat prec emax (length l))) (seq 0 (length l))).
Proof.
  intros H. unfold f_amdf, f_df. destruct l as [|x l]; [congruence|]. rewrite outer_ok by lia. f_equal. apply map_ext. intros k. unfold gap. rewrite map_map. reflexivity.
Qed.
Lemma energy_sum l : forall acc, fold_left add (map (fun x => mul x x) l) acc = f_inner prec emax l acc.
Proof. unfold f_inner. induction l as [|x l IH]; intros acc; [reflexivity|]. cbn [map fold_left]. apply IH. Qed.
Lemma asdf_ok l : l <> [] -> f_asdf prec emax l = Ok (map (fun k => div (f_energy prec emax (gap l k)) (of_nat prec emax (length l))) (seq 0 (length l))).
Proof.
  intros H. unfold f_asdf, f_df. destruct l as [|x l]; [congruence|]. rewrite outer_ok by lia. f_equal. apply map_ext. intros k. unfold f_energy. rewrite <- energy_sum. unfold gap, f_sum. rewrite map_map. reflexivity.
Qed.
Lemma gap_length l k : length (gap l k) = (length l - k)%nat.
Proof. unfold gap. rewrite map_length, seq_length. reflexivity. Qed.
Lemma nth_fin l j : all_finite l -> finite (nth j l zero).
Proof.
  intros A. destruct (le_lt_dec (length l) j) as [H|H]; [rewrite nth_overflow by auto; reflexivity|]. unfold all_finite in A. rewrite Forall_forall in A. apply A. apply nth_In. exact H.
Qed.
Lemma gap_not_nan l k : all_finite l -> Forall (fun x : fl => is_nan x = false) (gap l k).
Proof.
  intros A. apply Forall_forall. intros d D. unfold gap in D. apply in_map_iff in D. destruct D as [j [<- _]].
  apply (sub_not_nan prec emax); [apply fin_not_nan|]; apply nth_fin; auto.
Qed.
Lemma div_n x (l : list fl) : l <> [] -> (Z.of_nat (length l) <= 2 ^ prec)%Z -> finite (div x (of_nat prec emax (length l))) ->
  finite x /\ Rabs (val (div x (of_nat prec emax (length l))) - val x / INR (length l)) <= u * Rabs (val x / INR (length l)) + eta / 2.
Proof.
  intros N B F. destruct (of_nat_exact prec emax _ B) as [Fn Vn]. destruct (div_fin prec emax _ _ Fn F) as [Fs [_ V]]. split; [exact Fs|].
  rewrite V, Vn. pose proof (rnd_err prec emax (val x / INR (length l))) as D. rewrite <- (roundoff_u prec), <- (smallest_tiny prec emax) in D. exact D.
Qed.
Lemma quotient_err s A a b n y : 0 < n -> 0 <= A -> 0 <= a -> 0 <= b -> Rabs (s - A) <= a * A + b * n -> Rabs (y - s / n) <= u * Rabs (s / n) + eta / 2 ->
  Rabs (y - A / n) <= ((1 + u) * (1 + a) - 1) * (A / n) + (1 + u) * b + eta / 2.
Proof.
  intros N A0 a0 b0 E1 E2. pose proof (roundoff_pos prec) as U.
  assert (I : 0 < / n) by (apply Rinv_0_lt_compat; auto).
  assert (E3 : Rabs (s / n - A / n) <= a * (A / n) + b).
  { replace (s / n - A / n) with ((s - A) * / n) by (field; lra). rewrite Rabs_mult, (Rabs_right (/ n)) by lra.
    replace (a * (A / n) + b) with ((a * A + b * n) * / n) by (field; lra). apply Rmult_le_compat_r; lra. }
  assert (q0 : 0 <= A / n) by (apply Rmult_le_pos; lra). set (q := A / n) in *. set (p := s / n) in *.
  assert (E4 : Rabs p <= q + (a * q + b)). { replace p with ((p - q) + q) by ring. eapply Rle_trans; [apply Rabs_triang|]. rewrite (Rabs_right q) by lra. lra. }
  assert (E5 : u * Rabs p <= u * (q + (a * q + b))) by (apply Rmult_le_compat_l; lra).
  replace (y - q) with ((y - p) + (p - q)) by ring. eapply Rle_trans; [apply Rabs_triang|]. lra.
Qed.
Lemma gap_error l k : all_finite (gap l k) ->
  Forall2 (fun (d : fl) e => Rabs (val d - e) <= u * Rabs e) (gap l k) (differences l k).
Proof.
  unfold gap, differences. generalize (seq 0 (length l - k)). intros js A. induction js as [|j js IH]; [constructor|]. cbn [map] in *. inversion A as [|? ? F A']; subst.
  constructor; [|auto]. destruct (sub_fin prec emax _ _ F) as [_ [_ V]]. rewrite V.
  pose proof (add_err prec emax (val (nth j l zero)) (- val (nth (j + k) l zero)) (fmt_val prec emax _) ltac:(apply generic_format_opp, (fmt_val prec emax))) as D.
  rewrite <- (roundoff_u prec) in D. exact D.
Qed.
Lemma sum_rel (f : R -> R) (ds : list fl) (es : list R) c : 0 <= c ->
  Forall2 (fun (d : fl) e => Rabs (f (val d) - f e) <= c * f e) ds es -> (forall e, 0 <= f e) ->
  0 <= fold_right Rplus 0 (map f es) /\ Rabs (fold_right Rplus 0 (map (fun d => f (val d)) ds) - fold_right Rplus 0 (map f es)) <= c * fold_right Rplus 0 (map f es).
Proof.
  intros C H P. induction H as [|d e ds es E H IH]; cbn [map fold_right]; [rewrite Rminus_0_r, Rabs_R0; lra|]. destruct IH as [I1 I2]. pose proof (P e). split; [lra|].
  match goal with |- Rabs (?a + ?b - (?x + ?y)) <= _ => replace (a + b - (x + y)) with ((a - x) + (b - y)) by ring end.
  eapply Rle_trans; [apply Rabs_triang|]. lra.
Qed.
Lemma Forall2_weaken {A B} (P Q : A -> B -> Prop) l m : (forall a b, P a b -> Q a b) -> Forall2 P l m -> Forall2 Q l m.
Proof. intros H F. induction F; constructor; auto. Qed.
Lemma len_pos (l : list fl) : l <> [] -> 0 < INR (length l).
Proof. intros H. apply lt_0_INR. destruct l; [congruence|cbn; lia]. Qed.

Lemma amdf_error l k : l <> [] -> (Z.of_nat (length l) <= 2 ^ prec)%Z ->
  let v := div (f_sum prec emax (map (fabs prec emax) (gap l k))) (of_nat prec emax (length l)) in finite v -> (k < length l)%nat ->
  Rabs (val v - mean_abs_difference l k) <= ((1 + u) ^ (length l - k + 1) - 1) * mean_abs_difference l k + eta / 2.
Proof.
  intros N B v F K. destruct (div_n _ l N B F) as [Fs D]. fold v in D.
  destruct (sum_error prec emax _ Fs) as [A E]. rewrite map_length, gap_length in E.
  assert (AG : all_finite (gap l k)).
  { apply Forall_forall. intros x X. unfold all_finite in A. rewrite Forall_forall in A. specialize (A (fabs prec emax x) (in_map _ _ _ X)). unfold finite, fabs in A. rewrite is_finite_Babs in A. exact A. }
  pose proof (roundoff_pos prec) as U.
  assert (T : total (map (fabs prec emax) (gap l k)) = fold_right Rplus 0 (map (fun d => Rabs (val d)) (gap l k))).
  { unfold total. rewrite map_map. f_equal. apply map_ext. intros x. apply B2R_Babs. }
  assert (T2 : abs_total (map (fabs prec emax) (gap l k)) = fold_right Rplus 0 (map (fun d => Rabs (val d)) (gap l k))).
  { unfold abs_total. rewrite map_map. f_equal. apply map_ext. intros x. unfold fabs. rewrite B2R_Babs, Rabs_Rabsolu. reflexivity. }
  rewrite T, T2 in E.
  destruct (sum_rel Rabs (gap l k) (differences l k) u ltac:(lra)) as [P Q].
  { eapply Forall2_weaken; [|apply gap_error; exact AG]. cbn beta. intros d e H. eapply Rle_trans; [apply Rabs_triang_inv2|]. exact H. }
  { intros; apply Rabs_pos. }
  unfold mean_abs_difference. set (S := fold_right Rplus 0 (map Rabs (differences l k))) in *. set (G := fold_right Rplus 0 (map (fun d => Rabs (val d)) (gap l k))) in *.
  set (m := (length l - k - 1)%nat) in *. pose proof (pow_ge_1 prec m) as W.
  assert (E3 : Rabs (val (f_sum prec emax (map (fabs prec emax) (gap l k))) - S) <= ((1 + u) ^ m * (1 + u) - 1) * S + 0 * INR (length l)).
  { match goal with |- Rabs (?s - S) <= _ => replace (s - S) with ((s - G) + (G - S)) by ring end. eapply Rle_trans; [apply Rabs_triang|].
    assert (G <= (1 + u) * S). { pose proof (Rle_abs (G - S)). lra. }
    assert (((1 + u) ^ m - 1) * G <= ((1 + u) ^ m - 1) * ((1 + u) * S)) by (apply Rmult_le_compat_l; lra). nra. }
  pose proof (quotient_err _ S ((1 + u) ^ m * (1 + u) - 1) 0 (INR (length l)) (val v) (len_pos l N) P ltac:(nra) ltac:(lra) E3 D) as Z.
  eapply Rle_trans; [exact Z|]. replace (length l - k + 1)%nat with (Datatypes.S (Datatypes.S m)) by (unfold m; lia). cbn [pow]. apply Req_le. ring.
Qed.
Lemma asdf_error l k : l <> [] -> (Z.of_nat (length l) <= 2 ^ prec)%Z ->
  let v := div (f_energy prec emax (gap l k)) (of_nat prec emax (length l)) in finite v -> (k < length l)%nat ->
  Rabs (val v - mean_square_difference l k) <= ((1 + u) ^ (length l - k + 4) - 1) * mean_square_difference l k + ((1 + u) ^ (length l - k + 1) + 1) * (eta / 2).
Proof.
  intros N B v F K. destruct (div_n _ l N B F) as [Fs D]. fold v in D.
  destruct (C119_energy_error prec emax _ Fs) as [AG E]. rewrite gap_length in E. pose proof (roundoff_pos prec) as U.
  destruct (sum_rel (fun e => e ^ 2) (gap l k) (differences l k) ((1 + u) ^ 2 - 1) ltac:(cbn [pow]; nra)) as [P Q].
  { eapply Forall2_weaken; [|apply gap_error; exact AG]. cbn beta. intros d e H.
    replace (val d ^ 2 - e ^ 2) with ((val d - e) * ((val d - e) + 2 * e)) by ring. rewrite Rabs_mult.
    assert (H2 : Rabs (val d - e + 2 * e) <= (u + 2) * Rabs e). { eapply Rle_trans; [apply Rabs_triang|]. rewrite Rabs_mult, (Rabs_right 2) by lra. lra. }
    eapply Rle_trans; [apply Rmult_le_compat; [apply Rabs_pos|apply Rabs_pos|exact H|exact H2]|]. rewrite <- (pow2_abs e). apply Req_le. ring. }
  { intros; apply pow2_ge_0. }
  unfold mean_square_difference. unfold squares in E. set (S := fold_right Rplus 0 (map (fun d => d ^ 2) (differences l k))) in *.
  set (G := fold_right Rplus 0 (map (fun d => val d ^ 2) (gap l k))) in *. set (m := (length l - k)%nat) in *. pose proof (pow_ge_1 prec m) as W. cbn [pow] in E.
  pose proof (tinyS prec emax) as TS. pose proof (len_pos l N) as L.
  assert (LM : INR m <= INR (length l)) by (apply le_INR; unfold m; lia). pose proof (pos_INR m) as M0.
  set (w := (1 + u) ^ m) in *.
  assert (E3 : Rabs (val (f_energy prec emax (gap l k)) - S) <= (w * ((1 + u) * ((1 + u) * (1 + u))) - 1) * S + w * (eta / 2) * INR (length l)).
  { match goal with |- Rabs (?s - S) <= _ => replace (s - S) with ((s - G) + (G - S)) by ring end. eapply Rle_trans; [apply Rabs_triang|].
    assert (GS : G <= (1 + u) ^ 2 * S). { pose proof (Rle_abs (G - S)). lra. }
    assert (G2 : ((1 + u) * w - 1) * G <= ((1 + u) * w - 1) * ((1 + u) ^ 2 * S)) by (apply Rmult_le_compat_l; [nra|lra]).
    assert (G3 : INR m * w * (eta / 2) <= w * (eta / 2) * INR (length l)).
    { replace (INR m * w * (eta / 2)) with (w * (eta / 2) * INR m) by ring. apply Rmult_le_compat_l; [|lra]. apply Rmult_le_pos; lra. }
    eapply Rle_trans; [apply Rplus_le_compat; [exact E|exact Q]|]. cbn [pow] in *. lra. }
  assert (u3 : 1 <= (1 + u) * ((1 + u) * (1 + u))) by nra.
  assert (w3 : 1 <= w * ((1 + u) * ((1 + u) * (1 + u)))) by nra.
  pose proof (quotient_err _ S (w * ((1 + u) * ((1 + u) * (1 + u))) - 1) (w * (eta / 2)) (INR (length l)) (val v) L P ltac:(lra) ltac:(apply Rmult_le_pos; lra) E3 D) as Z.
  eapply Rle_trans; [exact Z|]. replace (m + 4)%nat with (Datatypes.S (Datatypes.S (Datatypes.S (Datatypes.S m)))) by lia. replace (m + 1)%nat with (Datatypes.S m) by lia. cbn [pow]. fold w. apply Req_le. ring.
Qed.

(** A lag at which every sample equals the one compared with it. *)
Lemma sub_same x y : finite x -> finite y -> val x = val y -> exists s, sub x y = B754_zero s.
Proof.
  intros Fx Fy E. destruct (sub_cases prec emax x y Fx Fy) as [[_ [V F]]|[O _]].
  - rewrite E, Rminus_diag_eq, (rnd_0 prec emax) in V by reflexivity. destruct (sub x y) as [s|s| |s m e H] eqn:Q; try discriminate F; [eauto|].
    exfalso. destruct (proj2 (val_nonzero prec emax (B754_finite s m e H)) ltac:(eauto)) as [_ Z]. exact (Z V).
  - exfalso. rewrite E, Rminus_diag_eq, (rnd_0 prec emax), Rabs_R0 in O by reflexivity. pose proof (bpow_gt_0 radix2 emax). lra.
Qed.
Lemma sum_zeros (l : list fl) : (forall x, In x l -> x = zero) -> f_sum prec emax l = zero.
Proof.
  unfold f_sum. induction l as [|x l IH]; intros H; [reflexivity|]. cbn [fold_left]. rewrite (H x (or_introl eq_refl)). change (add zero zero) with zero. apply IH. intros; apply H; right; auto.
Qed.
Lemma zero_div n : (0 < n)%nat -> (Z.of_nat n <= 2 ^ prec)%Z -> div zero (of_nat prec emax n) = zero.
Proof.
  intros N B. destruct (of_nat_exact prec emax n B) as [Fn Vn]. assert (0 < INR n) by (apply lt_0_INR; auto).
  destruct (of_nat prec emax n) as [s|s| |s m e H'] eqn:Q; try discriminate Fn; [cbn in Vn; lra|].
  destruct s; [|reflexivity]. exfalso. pose proof (proj1 (sign_val prec emax (B754_finite true m e H') eq_refl) eq_refl). lra.
Qed.
Lemma gap_zero l k : all_finite l -> (forall j, (j + k < length l)%nat -> val (nth j l zero) = val (nth (j + k) l zero)) ->
  forall d, In d (gap l k) -> exists s, d = B754_zero s.
Proof.
  intros A H d D. unfold gap in D. apply in_map_iff in D. destruct D as [j [<- J]]. apply in_seq in J. apply sub_same; [apply nth_fin; auto|apply nth_fin; auto|apply H; lia].
Qed.

(** The average magnitude difference function of finite samples: one value per lag, never negative and never
    NaN; unless it overflowed the value is within ((1+u)^(n-k+1) - 1) relatively of the exact one; and it is
    exactly +0 at every lag the signal repeats itself at. *)
Theorem C141_amdf l : l <> [] -> all_finite l -> (Z.of_nat (length l) <= 2 ^ prec)%Z -> (prec < emax - 1)%Z ->
  exists r, f_amdf prec emax l = Ok r /\ length r = length l /\ forall k v, nth_error r k = Some v ->
    le (B754_zero false) v /\
    (finite v -> Rabs (val v - mean_abs_difference l k) <= ((1 + u) ^ (length l - k + 1) - 1) * mean_abs_difference l k + eta / 2) /\
    ((forall j, (j + k < length l)%nat -> val (nth j l (B754_zero false)) = val (nth (j + k) l (B754_zero false))) -> v = B754_zero false).
Proof.
  intros N A B PE. rewrite (amdf_ok l N). eexists. split; [reflexivity|]. rewrite map_length, seq_length. split; [reflexivity|]. intros k v V.
  assert (K : (k < length l)%nat). { assert (X : nth_error (map (fun k => div (f_sum prec emax (map (fabs prec emax) (gap l k))) (of_nat prec emax (length l))) (seq 0 (length l))) k <> None) by congruence. apply nth_error_Some in X. rewrite map_length, seq_length in X. exact X. }
  rewrite nth_error_map, (nth_error_nth' _ 0%nat) in V by (rewrite seq_length; auto). rewrite seq_nth in V by auto. cbn [option_map plus] in V. injection V as <-.
  assert (L : (0 < length l)%nat) by lia.
  assert (B' : (Z.of_nat (length l) <= 2 ^ (emax - 1))%Z). { eapply Z.le_trans; [exact B|]. apply Z.pow_le_mono_r; lia. }
  split; [|split].
  - apply (nn_le prec emax). apply (div_nn prec emax); auto. unfold f_sum.
    assert (G : forall ds a, Forall (fun x : fl => is_nan x = false) ds -> nn prec emax a -> nn prec emax (fold_left add (map (fabs prec emax) ds) a)).
    { induction ds as [|d ds IH]; intros a Hd Ha; [exact Ha|]. cbn [map fold_left]. inversion Hd; subst. apply IH; auto. apply (add_nn prec emax); auto.
      split; [rewrite (abs_nan prec emax); auto|]. rewrite (abs_level prec emax) by auto. apply Rabs_pos. }
    apply G; [apply gap_not_nan; auto|]. split; [reflexivity|]. cbn. lra.
  - intros F. apply amdf_error; auto.
  - intros H. rewrite sum_zeros; [apply zero_div; auto|]. intros x X. apply in_map_iff in X. destruct X as [d [<- D]]. destruct (gap_zero l k A H d D) as [s ->]. reflexivity.
Qed.
(** The average square difference function: the same, with one rounding more per square and the underflow of
    the squares. *)
Theorem C141_asdf l : l <> [] -> all_finite l -> (Z.of_nat (length l) <= 2 ^ prec)%Z -> (prec < emax - 1)%Z ->
  exists r, f_asdf prec emax l = Ok r /\ length r = length l /\ forall k v, nth_error r k = Some v ->
    le (B754_zero false) v /\
    (finite v -> Rabs (val v - mean_square_difference l k) <=
       ((1 + u) ^ (length l - k + 4) - 1) * mean_square_difference l k + ((1 + u) ^ (length l - k + 1) + 1) * (eta / 2)) /\
    ((forall j, (j + k < length l)%nat -> val (nth j l (B754_zero false)) = val (nth (j + k) l (B754_zero false))) -> v = B754_zero false).
Proof.
  intros N A B PE. rewrite (asdf_ok l N). eexists. split; [reflexivity|]. rewrite map_length, seq_length. split; [reflexivity|]. intros k v V.
  assert (K : (k < length l)%nat). { assert (X : nth_error (map (fun k => div (f_energy prec emax (gap l k)) (of_nat prec emax (length l))) (seq 0 (length l))) k <> None) by congruence. apply nth_error_Some in X. rewrite map_length, seq_length in X. exact X. }
  rewrite nth_error_map, (nth_error_nth' _ 0%nat) in V by (rewrite seq_length; auto). rewrite seq_nth in V by auto. cbn [option_map plus] in V. injection V as <-.
  assert (L : (0 < length l)%nat) by lia.
  assert (B' : (Z.of_nat (length l) <= 2 ^ (emax - 1))%Z). { eapply Z.le_trans; [exact B|]. apply Z.pow_le_mono_r; lia. }
  split; [|split].
  - apply (nn_le prec emax). apply (div_nn prec emax); auto. apply (inner_nn prec emax); [apply gap_not_nan; auto|]. split; [reflexivity|]. cbn. lra.
  - intros F. apply asdf_error; auto.
  - intros H. unfold f_energy. rewrite <- energy_sum. change (fold_left add (map (fun x => mul x x) (gap l k)) zero) with (f_sum prec emax (map (fun x => mul x x) (gap l k))).
    rewrite sum_zeros; [apply zero_div; auto|]. intros x X. apply in_map_iff in X. destruct X as [d [<- D]]. destruct (gap_zero l k A H d D) as [s ->]. destruct s; reflexivity.
Qed.
Theorem C141_empty : f_amdf prec emax [] = UB /\ f_asdf prec emax [] = UB /\ f_peak prec emax [] = UB /\ f_peakabs prec emax [] = UB /\ f_peak2peak prec emax [] = UB /\ f_decrease prec emax [] = UB.
Proof. repeat split. Qed.

(** Peaks. *)
Lemma peak_scan key : (forall x, is_nan (key x) = is_nan x) -> forall l b bi i pre, is_nan b = false -> length pre = i -> nth_error pre bi = Some b ->
  (forall j y, nth_error pre j = Some y -> is_nan y = false -> lev (key y) <= lev (key b) /\ ((j < bi)%nat -> lev (key y) < lev (key b))) ->
  let r := fpeak_scan prec emax key i bi b l in is_nan (snd r) = false /\ nth_error (pre ++ l) (fst r) = Some (snd r) /\
  forall j y, nth_error (pre ++ l) j = Some y -> is_nan y = false -> lev (key y) <= lev (key (snd r)) /\ ((j < fst r)%nat -> lev (key y) < lev (key (snd r))).
Proof.
  intros K. induction l as [|x l IH]; intros b bi i pre N L H M; cbn [fpeak_scan].
  - rewrite app_nil_r. cbn. auto.
  - replace (pre ++ x :: l) with ((pre ++ [x]) ++ l) by (rewrite <- app_assoc; reflexivity).
    assert (BI : (bi < i)%nat) by (subst i; apply nth_error_Some; congruence).
    assert (SN : forall j y, nth_error (pre ++ [x]) j = Some y -> (nth_error pre j = Some y) \/ (j = i /\ y = x)).
    { intros j y J. destruct (Nat.lt_ge_cases j i) as [Q|Q]; [left; rewrite nth_error_app1 in J by lia; exact J|]. rewrite nth_error_app2 in J by lia. right.
      destruct (j - length pre)%nat eqn:D; cbn in J; [injection J as <-; split; [lia|reflexivity]|]. destruct n; discriminate J. }
    destruct (flt prec emax (key b) (key x)) eqn:E.
    + apply (flt_yes prec emax), (lt_iff prec emax) in E. destruct E as [E1 [E2 E3]]. rewrite K in E2. apply IH; auto.
      * rewrite app_length. cbn. lia.
      * rewrite nth_error_app2 by lia. replace (i - length pre)%nat with 0%nat by lia. reflexivity.
      * intros j y J Ny. destruct (SN j y J) as [Q|[-> ->]].
        -- destruct (M j y Q Ny). split; [lra|]. intros _. lra.
        -- split; [lra|]. intros; lia.
    + apply IH; auto.
      * rewrite app_length. cbn. lia.
      * rewrite nth_error_app1 by lia. exact H.
      * intros j y J Ny. destruct (SN j y J) as [Q|[-> ->]]; [apply (M j y Q Ny)|]. apply (flt_no prec emax) in E; [|rewrite K; auto|rewrite K; auto]. split; [exact E|intros; lia].
Qed.
Lemma peak_nan key l b bi : (forall x, is_nan (key x) = is_nan x) -> is_nan b = true -> forall i, fpeak_scan prec emax key i bi b l = (bi, b).
Proof.
  intros K N. induction l as [|x l IH]; intros i; [reflexivity|]. cbn [fpeak_scan]. unfold flt. rewrite (ltb_nan prec emax) by (rewrite !K; auto). apply IH.
Qed.
(** The peak is the first of the largest numbers of the range, itself and not a rounding of it, and NaN
    elements are passed over; but when the first element is NaN it is reported as the peak. *)
Theorem C141_peak x l : exists i r, f_peak prec emax (x :: l) = Ok (i, r) /\ nth_error (x :: l) i = Some r /\
  (nan x -> i = 0%nat) /\
  (~ nan x -> ~ nan r /\ forall j y, nth_error (x :: l) j = Some y -> ~ nan y -> le y r /\ ((j < i)%nat -> lt y r)).
Proof.
  unfold f_peak. destruct (is_nan x) eqn:N.
  - rewrite (peak_nan (fun v => v)) by auto. exists 0%nat, x. split; [reflexivity|]. split; [reflexivity|]. split; [reflexivity|]. intros H. exfalso. apply H. exact N.
  - destruct (peak_scan (fun v => v) (fun _ => eq_refl) l x 0%nat 1%nat [x] N eq_refl eq_refl) as [P1 [P2 P3]].
    { intros [|j] y J Ny; [injection J as <-; split; [lra|intros; lia]|destruct j; discriminate J]. }
    cbn [app] in P2, P3. destruct (fpeak_scan prec emax (fun v => v) 1 0 x l) as [i r]. cbn [fst snd] in *. exists i, r. split; [reflexivity|]. split; [exact P2|].
    split; [intros X; unfold nan in X; congruence|]. intros _. split; [apply (not_nan prec emax); exact P1|]. intros j y J Ny. apply not_nan in Ny. destruct (P3 j y J Ny) as [Q1 Q2].
    split; [apply le_iff; auto|intros; apply lt_iff; auto].
Qed.
(** The absolute peak: the sample with its sign, the first of the largest magnitudes. *)
Theorem C141_peakabs x l : exists i r, f_peakabs prec emax (x :: l) = Ok (i, r) /\ nth_error (x :: l) i = Some r /\
  (nan x -> i = 0%nat) /\
  (~ nan x -> ~ nan r /\ forall j y, nth_error (x :: l) j = Some y -> ~ nan y -> le (Babs y) (Babs r) /\ ((j < i)%nat -> lt (Babs y) (Babs r))).
Proof.
  unfold f_peakabs. destruct (is_nan x) eqn:N.
  - rewrite (peak_nan (fabs prec emax)) by (auto; apply (abs_nan prec emax)). exists 0%nat, x. split; [reflexivity|]. split; [reflexivity|]. split; [reflexivity|]. intros H. exfalso. apply H. exact N.
  - destruct (peak_scan (fabs prec emax) (abs_nan prec emax) l x 0%nat 1%nat [x] N eq_refl eq_refl) as [P1 [P2 P3]].
    { intros [|j] y J Ny; [injection J as <-; split; [lra|intros; lia]|destruct j; discriminate J]. }
    cbn [app] in P2, P3. destruct (fpeak_scan prec emax (fabs prec emax) 1 0 x l) as [i r]. cbn [fst snd] in *. exists i, r. split; [reflexivity|]. split; [exact P2|].
    split; [intros X; unfold nan in X; congruence|]. intros _. split; [apply (not_nan prec emax); exact P1|]. intros j y J Ny. apply not_nan in Ny. destruct (P3 j y J Ny) as [Q1 Q2].
    split; [apply le_iff; rewrite !is_nan_Babs; auto|intros; apply lt_iff; rewrite !is_nan_Babs; auto].
Qed.
(** The peak-to-peak value of finite samples is one rounding of the difference of the magnitudes of the
    largest and of the smallest sample. *)
Theorem C141_peak2peak l : l <> [] -> all_finite l -> exists r mx mn, f_peak2peak prec emax l = Ok r /\ In mx l /\ In mn l /\
  (forall y, In y l -> val mn <= val y <= val mx) /\ finite r /\ val r = rnd (Rabs (val mx) - Rabs (val mn)).
Proof.
  intros N A. unfold all_finite in A. rewrite Forall_forall in A.
  assert (NN : forall y, In y l -> ~ nan y) by (intros y Y; apply (not_nan prec emax), fin_not_nan, A, Y).
  assert (H0 : ~ nan (hd (B754_zero false) l)) by (destruct l as [|x l]; [congruence|apply NN; left; reflexivity]).
  destruct (C117_max prec emax l N) as [mx [E1 [_ [_ M1]]]]. destruct (C117_min prec emax l N) as [mn [E2 [_ [_ M2]]]].
  destruct (M1 H0) as [I1 L1]. destruct (M2 H0) as [I2 L2]. pose proof (A mx I1) as F1. pose proof (A mn I2) as F2.
  unfold f_peak2peak. rewrite E1, E2. cbn [bind]. exists (sub (fabs prec emax mx) (fabs prec emax mn)), mx, mn. split; [reflexivity|]. split; [exact I1|]. split; [exact I2|]. split.
  - intros y Y. specialize (L1 y Y (NN y Y)). specialize (L2 y Y (NN y Y)). apply (le_iff prec emax) in L1, L2. rewrite !level_fin in L1, L2 by (try exact F1; try exact F2; apply A; exact Y). lra.
  - assert (G : forall x : fl, finite x -> finite (fabs prec emax x) /\ val (fabs prec emax x) = Rabs (val x)).
    { intros x X. unfold finite, fabs. rewrite is_finite_Babs, B2R_Babs. auto. }
    destruct (G mx F1) as [G1 G2]. destruct (G mn F2) as [G3 G4]. destruct (sub_cases prec emax _ _ G1 G3) as [[_ [V F]]|[O _]].
    + split; [exact F|]. rewrite V, G2, G4. reflexivity.
    + exfalso. rewrite G2, G4 in O. pose proof (val_bound prec emax mx) as B1. pose proof (val_bound prec emax mn) as B2.
      assert (Q : Rabs (rnd (Rabs (val mx) - Rabs (val mn))) <= Rmax (Rabs (val mx)) (Rabs (val mn))).
      { pose proof (Rabs_pos (val mx)). pose proof (Rabs_pos (val mn)). apply Rabs_le. split.
        - rewrite <- (rnd_id prec emax (- Rmax _ _)); [apply (rnd_le prec emax); pose proof (Rmax_r (Rabs (val mx)) (Rabs (val mn))); lra|].
          apply generic_format_opp. unfold Rmax. destruct (Rle_dec _ _); apply generic_format_abs, (fmt_val prec emax).
        - rewrite <- (rnd_id prec emax (Rmax _ _)); [apply (rnd_le prec emax); pose proof (Rmax_l (Rabs (val mx)) (Rabs (val mn))); lra|].
          unfold Rmax. destruct (Rle_dec _ _); apply generic_format_abs, (fmt_val prec emax). }
      unfold Rmax in Q. destruct (Rle_dec _ _) in Q; lra.
Qed.

(** The decrease divides zero by zero at the first element: it is NaN whatever the samples. *)
Lemma dec_nan x0 l : forall i w s, is_nan w = true -> is_nan (fst (fdec_loop prec emax x0 i l w s)) = true.
Proof.
  induction l as [|x l IH]; intros i w s W; [exact W|]. cbn [fdec_loop]. apply IH. destruct w; try discriminate W. reflexivity.
Qed.
Lemma over_zero x : is_nan (div (sub x x) zero) = true.
Proof.
  destruct (is_finite x) eqn:F.
  - destruct (sub_same x x F F eq_refl) as [s ->]. reflexivity.
  - destruct x as [s|[]| |]; try discriminate F; reflexivity.
Qed.
Theorem C141_decrease_actual x l : exists r, f_decrease prec emax (x :: l) = Ok r /\ nan r.
Proof.
  unfold f_decrease. eexists. split; [reflexivity|]. cbn [fdec_loop].
  assert (W : is_nan (add zero (div (sub x x) zero)) = true). { pose proof (over_zero x) as D. destruct (div (sub x x) zero); try discriminate D. reflexivity. }
  pose proof (dec_nan x l (add zero (of_Z prec emax 1)) _ (add zero x) W) as D. unfold nan. destruct (fst _); try discriminate D. reflexivity.
Qed.
(** Samples that are integer multiples of one power of two. *)
Lemma exact_sum K q ds : (0 <= K)%Z -> (3 - emax - prec <= q)%Z -> (prec + q < emax)%Z -> Forall (on_grid prec emax K q) ds -> (Z.of_nat (length ds) * K <= 2 ^ prec)%Z ->
  finite (f_sum prec emax ds) /\ val (f_sum prec emax ds) = total ds.
Proof.
  intros K0 Q1 Q2. induction ds as [|d ds IH] using rev_ind; intros A B; [split; reflexivity|]. destruct (total_grid prec emax K q _ A) as [z [Vz Bz]].
  apply Forall_app in A. destruct A as [A D]. inversion D as [|? ? [Fd _] _]; subst. rewrite app_length in B. cbn [length] in B.
  destruct IH as [F V]; auto; [nia|]. rewrite (sum_snoc prec emax).
  destruct (fmt_grid prec emax q Q1 Q2 z) as [G1 G2]; [rewrite app_length in Bz; cbn [length] in Bz; lia|]. rewrite <- Vz in G1, G2.
  assert (E : val (f_sum prec emax ds) + val d = total (ds ++ [d])) by (rewrite total_app, V; reflexivity).
  destruct (add_cases prec emax _ d F Fd) as [[_ [W G]]|[O _]]; rewrite E in *; rewrite (rnd_id prec emax _ G1) in *; [auto|lra].
Qed.
Lemma exact_gap K q l k : (0 <= K)%Z -> (3 - emax - prec <= q)%Z -> (prec + q < emax)%Z -> (2 * K <= 2 ^ prec)%Z -> Forall (on_grid prec emax K q) l ->
  Forall (on_grid prec emax (2 * K) q) (gap l k) /\ map val (gap l k) = differences l k.
Proof.
  intros K0 Q1 Q2 B A.
  assert (N : forall j, on_grid prec emax K q (nth j l zero)).
  { intros j. destruct (le_lt_dec (length l) j) as [H|H].
    - rewrite nth_overflow by auto. split; [reflexivity|]. exists 0%Z. split; [change (val zero) with 0; ring|cbn; lia].
    - rewrite Forall_forall in A. apply A. apply nth_In. exact H. }
  assert (S : forall j i, on_grid prec emax (2 * K) q (sub (nth j l zero) (nth i l zero)) /\ val (sub (nth j l zero) (nth i l zero)) = val (nth j l zero) - val (nth i l zero)).
  { intros j i. destruct (N j) as [F1 [z1 [V1 B1]]]. destruct (N i) as [F2 [z2 [V2 B2]]]. destruct (fmt_grid prec emax q Q1 Q2 (z1 - z2) ltac:(lia)) as [G1 G2].
    assert (E : val (nth j l zero) - val (nth i l zero) = IZR (z1 - z2) * bpow radix2 q) by (rewrite V1, V2, minus_IZR; ring).
    rewrite <- E in G1, G2. destruct (sub_cases prec emax _ _ F1 F2) as [[_ [V F]]|[O _]]; rewrite (rnd_id prec emax _ G1) in *; [|lra].
    split; [|exact V]. split; [exact F|]. exists (z1 - z2)%Z. rewrite V. split; [exact E|lia]. }
  unfold gap, differences. generalize (seq 0 (length l - k)). intros js. split.
  - apply Forall_forall. intros d D. apply in_map_iff in D. destruct D as [j [<- _]]. apply S.
  - rewrite map_map. apply map_ext. intros j. apply S.
Qed.
Lemma pick (f : nat -> fl) n k v : nth_error (map f (seq 0 n)) k = Some v -> (k < n)%nat /\ v = f k.
Proof.
  intros V. assert (K : (k < n)%nat). { assert (X : nth_error (map f (seq 0 n)) k <> None) by congruence. apply nth_error_Some in X. rewrite map_length, seq_length in X. exact X. }
  split; [exact K|]. rewrite nth_error_map, (nth_error_nth' _ 0%nat) in V by (rewrite seq_length; auto). rewrite seq_nth in V by auto. cbn [option_map plus] in V. injection V as <-. reflexivity.
Qed.
(** On such samples, of at most K steps each, the functions are the exact values rounded once. *)
Theorem C141_amdf_grid K q l : l <> [] -> (0 <= K)%Z -> (3 - emax - prec <= q)%Z -> (prec + q < emax)%Z -> (Z.of_nat (length l) * (2 * K) <= 2 ^ prec)%Z -> (Z.of_nat (length l) <= 2 ^ prec)%Z ->
  (forall x, In x l -> finite x /\ exists z, val x = IZR z * bpow radix2 q /\ (Z.abs z <= K)%Z) ->
  exists r, f_amdf prec emax l = Ok r /\ length r = length l /\ forall k v, nth_error r k = Some v -> finite v /\ val v = rnd (mean_abs_difference l k).
Proof.
  intros N K0 Q1 Q2 B B' A. assert (A' : Forall (on_grid prec emax K q) l) by (apply Forall_forall; exact A).
  assert (L : (0 < length l)%nat) by (destruct l; [congruence|cbn; lia]).
  rewrite (amdf_ok l N). eexists. split; [reflexivity|]. rewrite map_length, seq_length. split; [reflexivity|]. intros k v V. apply pick in V. destruct V as [Hk ->].
  destruct (exact_gap K q l k K0 Q1 Q2 ltac:(nia) A') as [G E].
  assert (GA : Forall (on_grid prec emax (2 * K) q) (map (fabs prec emax) (gap l k))).
  { apply Forall_forall. intros x X. apply in_map_iff in X. destruct X as [d [<- D]]. rewrite Forall_forall in G. destruct (G d D) as [F [z [Vz Bz]]].
    split; [unfold finite, fabs; rewrite is_finite_Babs; exact F|]. exists (Z.abs z). split; [|lia]. unfold fabs. rewrite B2R_Babs, Vz, Rabs_mult, (Rabs_right (bpow radix2 q)), abs_IZR by (apply Rle_ge, bpow_ge_0). reflexivity. }
  destruct (exact_sum (2 * K) q _ ltac:(lia) Q1 Q2 GA) as [F V]; [rewrite map_length, gap_length; nia|].
  apply (quotient prec emax (length l) L); auto. rewrite V. unfold mean_abs_difference. rewrite <- E. unfold total. rewrite !map_map.
  rewrite (map_ext (fun x => val (fabs prec emax x)) (fun x => Rabs (val x))) by (intros; apply B2R_Babs). field. apply Rgt_not_eq. apply lt_0_INR; auto.
Qed.
Theorem C141_asdf_grid K q l : l <> [] -> (0 <= K)%Z -> (3 - emax - prec <= 2 * q)%Z -> (3 - emax - prec <= q)%Z -> (prec + q < emax)%Z -> (prec + 2 * q < emax)%Z ->
  (Z.of_nat (length l) * ((2 * K) * (2 * K)) <= 2 ^ prec)%Z -> (Z.of_nat (length l) <= 2 ^ prec)%Z ->
  (forall x, In x l -> finite x /\ exists z, val x = IZR z * bpow radix2 q /\ (Z.abs z <= K)%Z) ->
  exists r, f_asdf prec emax l = Ok r /\ length r = length l /\ forall k v, nth_error r k = Some v -> finite v /\ val v = rnd (mean_square_difference l k).
Proof.
  intros N K0 Q1 Q1' Q2' Q2 B B' A. assert (A' : Forall (on_grid prec emax K q) l) by (apply Forall_forall; exact A).
  assert (L : (0 < length l)%nat) by (destruct l; [congruence|cbn; lia]).
  rewrite (asdf_ok l N). eexists. split; [reflexivity|]. rewrite map_length, seq_length. split; [reflexivity|]. intros k v V. apply pick in V. destruct V as [Hk ->].
  destruct (exact_gap K q l k K0 Q1' Q2' ltac:(nia) A') as [G E].
  assert (SQ : forall d, In d (gap l k) -> on_grid prec emax ((2 * K) * (2 * K)) (2 * q) (mul d d) /\ val (mul d d) = val d ^ 2).
  { intros d D. rewrite Forall_forall in G. destruct (G d D) as [F [z [Vz Bz]]]. assert (ZB : (Z.abs (z * z) <= (2 * K) * (2 * K))%Z) by (rewrite Z.abs_mul; apply Z.mul_le_mono_nonneg; lia).
    destruct (fmt_grid prec emax (2 * q) Q1 Q2 (z * z) ltac:(nia)) as [G1 G2].
    assert (EE : val d * val d = IZR (z * z) * bpow radix2 (2 * q)) by (rewrite Vz, mult_IZR; replace (2 * q)%Z with (q + q)%Z by lia; rewrite bpow_plus; ring).
    rewrite <- EE in G1, G2. destruct (mul_cases prec emax d d F F) as [[_ [V FF]]|[O _]]; rewrite (rnd_id prec emax _ G1) in *; [|lra].
    split; [|rewrite V; ring]. split; [exact FF|]. exists (z * z)%Z. rewrite V. split; [exact EE|exact ZB]. }
  unfold f_energy. rewrite <- energy_sum. change (fold_left add (map (fun x => mul x x) (gap l k)) zero) with (f_sum prec emax (map (fun x => mul x x) (gap l k))).
  destruct (exact_sum ((2 * K) * (2 * K)) (2 * q) (map (fun x => mul x x) (gap l k)) ltac:(nia) Q1 Q2) as [F V].
  { apply Forall_forall. intros x X. apply in_map_iff in X. destruct X as [d [<- D]]. apply SQ, D. }
  { rewrite map_length, gap_length. nia. }
  apply (quotient prec emax (length l) L); auto. rewrite V. unfold mean_square_difference. rewrite <- E. unfold total. rewrite !map_map.
  rewrite (map_ext_in (fun x => val (mul x x)) (fun x => val x ^ 2)) by (intros d D; apply SQ, D). field. apply Rgt_not_eq. apply lt_0_INR; auto.
Qed.

(** Powers and moments. *)
Lemma mul_sign x y : is_nan (mul x y) = false -> Bsign (mul x y) = xorb (Bsign x) (Bsign y).
Proof.
  intros N. pose proof (Bmult_correct prec emax Hprec Hmax mode_NE x y) as H.
  destruct (Rlt_bool _ _); [apply H; exact N|]. change (Bmult mode_NE x y) with (mul x y) in H. rewrite (overflow_inf prec emax _ _ H). reflexivity.
Qed.
Lemma sign_nn x : is_nan x = false -> Bsign x = false -> nn prec emax x.
Proof.
  intros N S. destruct (is_finite x) eqn:F; [apply (nn_fin prec emax); auto; apply (sign_val prec emax); auto|].
  destruct x as [?|[]| |]; try discriminate. apply (nn_inf prec emax).
Qed.
(** No product of the loop is 0 * inf: a factor below 1 keeps the power finite, another keeps it from vanishing. *)
Let big (x : fl) : Prop := match x with B754_infinity _ => True | _ => 1 <= Rabs (val x) end.
Lemma mul_small x r : finite x -> Rabs (val x) < 1 -> finite r -> finite (mul r x).
Proof.
  intros Fx H Fr. destruct (mul_cases prec emax r x Fr Fx) as [[_ [_ F]]|[O _]]; [exact F|]. exfalso.
  assert (Q : Rabs (rnd (val r * val x)) <= Rabs (val r)).
  { assert (P : Rabs (val r * val x) <= Rabs (val r)). { rewrite Rabs_mult. rewrite <- (Rmult_1_r (Rabs (val r))) at 2. apply Rmult_le_compat_l; [apply Rabs_pos|lra]. }
    apply Rabs_le_inv in P. apply Rabs_le. split.
    - rewrite <- (rnd_id prec emax (- Rabs (val r))); [apply (rnd_le prec emax); lra|]. apply generic_format_opp, generic_format_abs, (fmt_val prec emax).
    - rewrite <- (rnd_id prec emax (Rabs (val r))); [apply (rnd_le prec emax); lra|]. apply generic_format_abs, (fmt_val prec emax). }
  pose proof (val_bound prec emax r). lra.
Qed.
Lemma rnd_abs x : Rabs (rnd x) = rnd (Rabs x).
Proof.
  destruct (Rle_dec 0 x) as [H|H].
  - rewrite !Rabs_right; auto; apply Rle_ge; auto. apply (rnd_pos prec emax); auto.
  - rewrite (Rabs_left1 x) by lra. rewrite (rnd_opp prec emax). apply Rabs_left1. rewrite <- (rnd_0 prec emax). apply (rnd_le prec emax). lra.
Qed.
Lemma mul_big x r : is_nan x = false -> is_nan r = false -> big x -> big r -> is_nan (mul r x) = false /\ big (mul r x).
Proof.
  intros Nx Nr Bx Br. destruct (is_finite r) eqn:Fr; [destruct (is_finite x) eqn:Fx|].
  - destruct (mul_cases prec emax r x Fr Fx) as [[_ [V F]]|[_ E]]; [|rewrite E; split; [reflexivity|exact I]].
    split; [apply fin_not_nan; exact F|]. assert (G : 1 <= Rabs (val (mul r x))).
    { rewrite V, rnd_abs, Rabs_mult. rewrite <- (rnd_id prec emax 1 (fmt_1 prec emax)). apply (rnd_le prec emax).
      assert (1 <= Rabs (val x)) by (destruct x; try discriminate Fx; exact Bx). assert (1 <= Rabs (val r)) by (destruct r; try discriminate Fr; exact Br). nra. }
    destruct (mul r x); try discriminate F; exact G.
  - destruct x as [?|s| |]; try discriminate. destruct r as [?|?| |]; try discriminate; [exfalso; cbn in Br; rewrite Rabs_R0 in Br; lra|]. split; [reflexivity|exact I].
  - destruct r as [?|s| |]; try discriminate. destruct x as [?|?| |]; try discriminate; [exfalso; cbn in Bx; rewrite Rabs_R0 in Bx; lra| |]; split; try reflexivity; exact I.
Qed.
Lemma pow_loop_ok x k : is_nan x = false -> forall r, is_nan r = false -> (finite x /\ Rabs (val x) < 1 /\ finite r) \/ (big x /\ big r) ->
  is_nan (fpow_loop prec emax x k r) = false /\ Bsign (fpow_loop prec emax x k r) = xorb (Bsign r) (if Nat.even k then false else Bsign x).
Proof.
  intros Nx. induction k as [|k IH]; intros r Nr H; [cbn; rewrite xorb_false_r; auto|]. cbn [fpow_loop].
  assert (G : is_nan (mul r x) = false /\ ((finite x /\ Rabs (val x) < 1 /\ finite (mul r x)) \/ (big x /\ big (mul r x)))).
  { destruct H as [[F [S R]]|[B1 B2]]; [pose proof (mul_small x r F S R) as M; split; [apply fin_not_nan; exact M|left; auto]|]. destruct (mul_big x r Nx Nr B1 B2) as [M1 M2]. split; [exact M1|right; auto]. }
  destruct G as [G1 G2]. destruct (IH (mul r x) G1 G2) as [I1 I2]. split; [exact I1|]. rewrite I2, (mul_sign r x G1), xorb_assoc. f_equal.
  rewrite Nat.even_succ, <- Nat.negb_even. destruct (Nat.even k), (Bsign x); reflexivity.
Qed.
Lemma even_power n x : Nat.even n = true -> (2 <= n)%nat -> is_nan x = false -> nn prec emax (f_nth_power prec emax n x).
Proof.
  intros E N Nx. unfold f_nth_power.
  assert (H : (finite x /\ Rabs (val x) < 1 /\ finite x) \/ (big x /\ big x)).
  { destruct x as [s|s| |s m e B] eqn:X; try discriminate Nx; [left|right|]; cbn; auto; [rewrite Rabs_R0; repeat split; auto; lra|].
    rewrite <- X. destruct (Rlt_dec (Rabs (val x)) 1) as [L|L]; rewrite X in *; [left; repeat split; auto|right; split; cbn in *; lra]. }
  destruct (pow_loop_ok x (n - 1) Nx x Nx H) as [P Q]. apply sign_nn; [exact P|]. rewrite Q.
  assert (O : Nat.even (n - 1) = false). { destruct n as [|n]; [lia|]. rewrite Nat.even_succ, <- Nat.negb_even in E. replace (S n - 1)%nat with n by lia. destruct (Nat.even n); auto. }
  rewrite O. apply xorb_nilpotent.
Qed.
(** Even moments about any number, and about the mean, are never negative and never NaN, whatever overflows. *)
Theorem C141_even_moment n l m : Nat.even n = true -> (2 <= n)%nat -> l <> [] -> all_finite l -> (Z.of_nat (length l) <= 2 ^ (emax - 1))%Z -> ~ nan m ->
  le (B754_zero false) (f_nth_moment prec emax n l m) /\ le (B754_zero false) (f_moment prec emax n l).
Proof.
  intros E N L A B M. apply (not_nan prec emax) in M.
  assert (P : (0 < length l)%nat) by (destruct l; [congruence|cbn; lia]).
  assert (G : forall m : fl, is_nan m = false -> le (B754_zero false) (f_nth_moment prec emax n l m)).
  { clear M m. intros m M. apply (nn_le prec emax). unfold f_nth_moment. apply (div_nn prec emax); auto.
    assert (H : forall ds a, all_finite ds -> nn prec emax a -> nn prec emax (fold_left (fun sum current => add sum (f_nth_power prec emax n (sub current m))) ds a)).
    { induction ds as [|d ds IH]; intros a Hd Ha; [exact Ha|]. cbn [fold_left]. inversion Hd; subst. apply IH; auto. apply (add_nn prec emax); auto. apply even_power; auto. apply (sub_not_nan prec emax); auto. }
    apply H; auto. split; [reflexivity|]. cbn. lra. }
  split; [apply G; exact M|]. apply G. apply (mean_not_nan prec emax); auto.
Qed.
(** The second moment about the mean is the variance. *)
Theorem C141_second_moment l : f_moment prec emax 2 l = f_variance prec emax l.
Proof. reflexivity. Qed.
End Format.

(** A zero of the functions does not mean that the signal repeats itself: the division, or the squares, underflow. *)
Theorem C141_zero_refuted :
  ~ (forall (l r : list double) k v, all_finite l -> f_amdf 53 1024 l = Ok r -> nth_error r k = Some v -> Beqb v (dbl 0) = true -> forall j, (j + k < length l)%nat -> Beqb (nth j l (dbl 0)) (nth (j + k) l (dbl 0)) = true) /\
  ~ (forall (l r : list double) k v, all_finite l -> f_asdf 53 1024 l = Ok r -> nth_error r k = Some v -> Beqb v (dbl 0) = true -> forall j, (j + k < length l)%nat -> Beqb (nth j l (dbl 0)) (nth (j + k) l (dbl 0)) = true).
Proof.
  split; intros H.
  - set (l := [dbl 0; fmul 53 1024 (ratio 1 (2 ^ 1000)) (ratio 1 (2 ^ 74))]).
    pose proof (H l _ 1%nat _ ltac:(repeat constructor) (amdf_ok 53 1024 l ltac:(discriminate)) eq_refl ltac:(vm_compute; reflexivity) 0%nat ltac:(cbn; lia)) as X. vm_compute in X. discriminate X.
  - set (l := [dbl 0; ratio 1 (2 ^ 600)]).
    pose proof (H l _ 1%nat _ ltac:(repeat constructor) (asdf_ok 53 1024 l ltac:(discriminate)) eq_refl ltac:(vm_compute; reflexivity) 0%nat ltac:(cbn; lia)) as X. vm_compute in X. discriminate X.
Qed.
(** The third moment of finite samples can be NaN, and the peak-to-peak value of a wave from -1 to 1 is zero. *)
Theorem C141_odd_moment_refuted : ~ (forall l : list double, l <> [] -> all_finite l -> ~ nan (f_moment 53 1024 3 l)).
Proof.
  intros H. apply (H [top; fsub 53 1024 (dbl 0) top]); [discriminate|repeat constructor; vm_compute; reflexivity|vm_compute; reflexivity].
Qed.
Theorem C141_peak2peak_refuted : ~ (forall l : list double, l <> [] -> all_finite l -> exists r, f_peak2peak 53 1024 l = Ok r /\ forall x y, In x l -> In y l -> le (fsub 53 1024 x y) r).
Proof.
  intros H. destruct (H [dbl (-1); dbl 1]) as [r [E L]]; [discriminate|repeat constructor|]. specialize (L (dbl 1) (dbl (-1)) ltac:(cbn; auto) ltac:(cbn; auto)).
  unfold f_peak2peak, f_max, f_min in E. cbn [bind] in E. injection E as <-. vm_compute in L. discriminate L.
Qed.
(** The decrease of a range is never a number. *)
Theorem C141_decrease_refuted : ~ (exists l r, f_decrease 53 1024 l = Ok r /\ ~ nan r).
Proof.
  intros [l [r [E N]]]. destruct l as [|x l]; [discriminate E|]. destruct (C141_decrease_actual 53 1024 x l) as [r' [E' N']]. rewrite E in E'. injection E' as <-. auto.
Qed.
Example C141_example : exists a s, f_amdf 53 1024 [dbl 1; dbl 2; dbl 1; dbl 2] = Ok a /\ f_asdf 53 1024 [dbl 1; dbl 2; dbl 1; dbl 2] = Ok s /\
  map B2SF a = map B2SF [dbl 0; ratio 3 4; dbl 0; ratio 1 4] /\ map B2SF s = map B2SF [dbl 0; ratio 3 4; dbl 0; ratio 1 4].
Proof.
  do 2 eexists. split; [apply amdf_ok; discriminate|]. split; [apply asdf_ok; discriminate|]. split; vm_compute; reflexivity.
Qed.
(** 16-bit samples in doubles: up to 2^37 of them for the first function and 2^21 for the second. *)
Example C141_grid_example : (2 ^ 37 * (2 * 2 ^ 15) <= 2 ^ 53)%Z /\ (2 ^ 21 * ((2 * 2 ^ 15) * (2 * 2 ^ 15)) <= 2 ^ 53)%Z /\ (3 - 1024 - 53 <= 2 * -15)%Z /\ (53 + 2 * -15 < 1024)%Z /\
  exists z, B2R (ratio 3 (2 ^ 15)) = IZR z * bpow radix2 (-15) /\ (Z.abs z <= 2 ^ 15)%Z.
Proof.
  repeat split; try (vm_compute; congruence). exists 3%Z. split; [|vm_compute; congruence]. rewrite <- SF2R_B2SF. vm_compute (B2SF _). cbn. unfold F2R. cbn. lra.
Qed.
Example C141_peak_example : let l := [dbl 1; B754_nan; dbl 3; dbl 3; dbl (-7)] in f_peak 53 1024 l = Ok (2%nat, dbl 3) /\ f_peakabs 53 1024 l = Ok (4%nat, dbl (-7)).
Proof.
  assert (N : forall x : double, flt 53 1024 x B754_nan = false) by (intros []; reflexivity).
  assert (A : flt 53 1024 (dbl 1) (dbl 3) = true /\ flt 53 1024 (dbl 3) (dbl 3) = false /\ flt 53 1024 (dbl 3) (dbl (-7)) = false) by (repeat split; vm_compute; reflexivity).
  assert (B : flt 53 1024 (fabs 53 1024 (dbl 1)) (fabs 53 1024 (dbl 3)) = true /\ flt 53 1024 (fabs 53 1024 (dbl 3)) (fabs 53 1024 (dbl 3)) = false /\ flt 53 1024 (fabs 53 1024 (dbl 3)) (fabs 53 1024 (dbl (-7))) = true) by (repeat split; vm_compute; reflexivity).
  destruct A as [A1 [A2 A3]]. destruct B as [B1 [B2 B3]]. cbv zeta. unfold f_peak, f_peakabs. cbn [fpeak_scan]. change (fabs 53 1024 B754_nan) with (B754_nan : double). rewrite !N, A1, B1, A2, B2, A3, B3. auto.
Qed.
Example C141_moment_example : ~ nan (dbl 2) /\ all_finite [dbl 1; dbl 5] /\ lt (dbl 0) (f_moment 53 1024 4 [dbl 1; dbl 5]).
Proof. split; [discriminate|]. split; [repeat constructor|vm_compute; reflexivity]. Qed.
Print Assumptions C141_amdf.
Print Assumptions C141_asdf.
Print Assumptions C141_empty.
Print Assumptions C141_peak.
Print Assumptions C141_peakabs.
Print Assumptions C141_peak2peak.
Print Assumptions C141_decrease_actual.
Print Assumptions C141_amdf_grid.
Print Assumptions C141_asdf_grid.
Print Assumptions C141_even_moment.
Print Assumptions C141_second_moment.
Print Assumptions C141_zero_refuted.
Print Assumptions C141_odd_moment_refuted.
Print Assumptions C141_peak2peak_refuted.
Print Assumptions C141_decrease_refuted.
