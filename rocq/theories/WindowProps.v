(** Theorems C30, C31: the window functions. *)
From Verif Require Import RealBase RealBaseProofs BaseProofs NumModel NumProps WindowModel WindowSpec.
Local Open Scope R_scope.
Local Open Scope res_scope.

Lemma len1 n : (2 <= n)%nat -> 0 < INR n - 1.
Proof. intros H. apply le_INR in H. simpl in H. lra. Qed.
Lemma INR_flip n i : (i < n)%nat -> INR (n - 1 - i) = INR n - 1 - INR i.
Proof. intros H. rewrite !minus_INR by lia. simpl. lra. Qed.

Lemma sym_map (f : nat -> R) n : (forall i, (i < n)%nat -> f (n - 1 - i)%nat = f i) -> symmetric (map f (seq 0 n)).
Proof.
  intros H. unfold symmetric. apply nth_ext with (d := 0) (d' := 0); [rewrite rev_length; auto|]. intros i Hi. rewrite rev_length, map_length, seq_length in Hi.
  rewrite rev_nth by (rewrite map_length, seq_length; auto). rewrite map_length, seq_length.
  rewrite !(nth_indep _ 0 (f 0%nat)) by (rewrite map_length, seq_length; lia). rewrite !map_nth, !seq_nth by lia. cbn [plus].
  replace (n - S i)%nat with (n - 1 - i)%nat by lia. apply H; auto.
Qed.
Lemma in_map_seq (f : nat -> R) n x : In x (map f (seq 0 n)) -> exists i, (i < n)%nat /\ x = f i.
Proof. intros H. apply in_map_iff in H as [i [E I]]. apply in_seq in I. exists i. split; [lia|auto]. Qed.

Lemma cos_mult_flip n i k : (2 <= n)%nat -> (i < n)%nat ->
  cos (2 * PI * INR k * INR (n - 1 - i) / (INR n - 1)) = cos (2 * PI * INR k * INR i / (INR n - 1)).
Proof.
  intros Hn Hi. pose proof (len1 n Hn). rewrite INR_flip by auto.
  replace (2 * PI * INR k * (INR n - 1 - INR i) / (INR n - 1)) with (- (2 * PI * INR k * INR i / (INR n - 1)) + 2 * INR k * PI) by (field; lra).
  rewrite cos_period. apply cos_neg.
Qed.
Lemma cosine_sum_sym a n : (2 <= n)%nat -> symmetric (map (cosine_sum a n) (seq 0 n)).
Proof.
  intros Hn. apply sym_map. intros i Hi. unfold cosine_sum. apply sumf_ext. intros k Hk. rewrite cos_mult_flip by auto. reflexivity.
Qed.
Lemma sumf_abs_le (f g : nat -> R) n : (forall k, (k < n)%nat -> Rabs (f k) <= g k) -> Rabs (sumf f n) <= sumf g n.
Proof.
  induction n; intros H; simpl; [rewrite Rabs_R0; lra|]. eapply Rle_trans; [apply Rabs_triang|]. apply Rplus_le_compat; auto.
Qed.
Lemma cosine_sum_bound a n i : Rabs (cosine_sum a n i) <= rsum (map Rabs a).
Proof.
  unfold cosine_sum. replace (rsum (map Rabs a)) with (sumf (fun k => Rabs (nth k a 0)) (length a)).
  - apply sumf_abs_le. intros k Hk. rewrite !Rabs_mult. rewrite <- RPow_abs. replace (Rabs (-1)) with 1 by (rewrite Rabs_left; lra). rewrite pow1, Rmult_1_l.
    rewrite <- (Rmult_1_r (Rabs (nth k a 0))) at 2. apply Rmult_le_compat_l; [apply Rabs_pos|]. apply Rabs_le. apply COS_bound.
  - symmetry. rewrite (rsum_sumf (map Rabs a)). rewrite map_length. apply sumf_ext. intros k Hk.
    rewrite <- Rabs_R0 at 1. apply map_nth.
Qed.

(** The code of a cosine window with coefficient function [f] is the textbook window [a]. *)
Lemma cosine_window_ok f a n : (2 <= n)%nat ->
  (forall i, f (2 * PI / (INR n - 1) * INR i) = cosine_sum a n i) ->
  cosine_window f n = Ok (map (cosine_sum a n) (seq 0 n)).
Proof.
  intros Hn H. unfold cosine_window. pose proof (len1 n Hn). rewrite rdiv_ok by lra. cbn [bind]. f_equal. apply map_ext. intros i. apply H.
Qed.
Lemma cosine_window_one f : cosine_window f 1 = NonFinite.
Proof. unfold cosine_window. simpl INR. rewrite Rminus_diag_eq by reflexivity. rewrite rdiv_zero. reflexivity. Qed.

Ltac cosw Hn := apply cosine_window_ok; [exact Hn|]; intros i; unfold cosine_sum; cbn [sumf length nth]; pose proof (len1 _ Hn);
  simpl INR; simpl pow;
  repeat match goal with |- context [2 * PI * ?k * INR i / (INR ?n - 1)] =>
     replace (2 * PI * k * INR i / (INR n - 1)) with (k * (2 * PI / (INR n - 1) * INR i)) by (field; lra) end;
  rewrite ?Rmult_0_l, ?cos_0, ?Rmult_1_l;
  replace (1 + 1 + 1) with 3 by lra; replace (3 + 1) with 4 by lra; replace (1 + 1) with 2 by lra; try lra.

Definition hanning_c := [5/10; 5/10].
Definition hamming_c := [54/100; 46/100].
Definition blackman_c := [42/100; 50/100; 8/100].
Definition harris_c := [35875/100000; 48829/100000; 14128/100000; 1168/100000].
Definition nutall_c := [3635819/10000000; 4891775/10000000; 1365995/10000000; 106411/10000000].
Definition flattop_c := [21557895/100000000; 41663158/100000000; 277263158/1000000000; 83578947/1000000000; 6947368/1000000000].

(** Every cosine window is the textbook sum with its published coefficients. *)
Theorem C30_values n : (2 <= n)%nat ->
  hanning n = Ok (map (cosine_sum hanning_c n) (seq 0 n)) /\ hamming n = Ok (map (cosine_sum hamming_c n) (seq 0 n)) /\
  blackman n = Ok (map (cosine_sum blackman_c n) (seq 0 n)) /\ blackman_harris n = Ok (map (cosine_sum harris_c n) (seq 0 n)) /\
  blackman_nutall n = Ok (map (cosine_sum nutall_c n) (seq 0 n)) /\ flattop n = Ok (map (cosine_sum flattop_c n) (seq 0 n)).
Proof.
  intros Hn.
  split; [unfold hanning, hanning_c; cosw Hn|]. split; [unfold hamming, hamming_c; cosw Hn|]. split; [unfold blackman, blackman_c; cosw Hn|].
  split; [unfold blackman_harris, harris_c; cosw Hn|]. split; [unfold blackman_nutall, nutall_c; cosw Hn|unfold flattop, flattop_c; cosw Hn].
Qed.

Definition all_windows := [hanning; hamming; blackman; blackman_harris; blackman_nutall; flattop].
(** Symmetric, of the requested length, and bounded by the sum of the coefficient magnitudes. *)
Theorem C30_symmetric_bounded n win c : (2 <= n)%nat ->
  In (win, c) [(hanning, hanning_c); (hamming, hamming_c); (blackman, blackman_c); (blackman_harris, harris_c); (blackman_nutall, nutall_c); (flattop, flattop_c)] ->
  exists w, win n = Ok w /\ length w = n /\ symmetric w /\ (forall x, In x w -> Rabs x <= rsum (map Rabs c)).
Proof.
  intros Hn HI. assert (E : win n = Ok (map (cosine_sum c n) (seq 0 n))).
  { destruct (C30_values n Hn) as (A1 & A2 & A3 & A4 & A5 & A6). simpl in HI. destruct HI as [E|[E|[E|[E|[E|[E|[]]]]]]]; injection E as <- <-; auto. }
  exists (map (cosine_sum c n) (seq 0 n)). split; auto. split; [rewrite map_length, seq_length; auto|]. split; [apply cosine_sum_sym; auto|].
  intros x HX. apply in_map_seq in HX as [i [_ ->]]. apply cosine_sum_bound.
Qed.
Lemma cos_3a x : cos (3 * x) = 4 * cos x * cos x * cos x - 3 * cos x.
Proof.
  replace (3 * x) with (2 * x + x) by ring. rewrite cos_plus, cos_2a_cos, sin_2a. pose proof (sin2_cos2 x) as S. unfold Rsqr in S.
  replace (2 * sin x * cos x * sin x) with (2 * cos x * (sin x * sin x)) by ring. replace (sin x * sin x) with (1 - cos x * cos x) by lra. ring.
Qed.
Lemma cosine_window_in f n w lo hi : cosine_window f n = Ok w -> (forall t, lo <= f t <= hi) -> forall x, In x w -> lo <= x <= hi.
Proof.
  unfold cosine_window. intros E H x HX. destruct (rdiv (2 * PI) (INR n - 1)); cbn [bind] in E; try discriminate. injection E as <-.
  apply in_map_seq in HX as [i [_ ->]]. apply H.
Qed.
(** All but the flat-top window take values in [0,1]. *)
Theorem C30_unit_range n win w : In win [hanning; hamming; blackman; blackman_harris; blackman_nutall] -> win n = Ok w -> within01 w.
Proof.
  intros HI E. assert (B : forall t, -1 <= cos t <= 1) by (intros; apply COS_bound).
  simpl in HI. destruct HI as [<-|[<-|[<-|[<-|[<-|[]]]]]]; unfold within01; apply (cosine_window_in _ _ _ _ _ E); intros t; rewrite ?cos_3a, ?cos_2a_cos; specialize (B t); set (c := cos t) in *; clearbody c.
  - lra.
  - lra.
  - split; nra.
  - assert (0 <= (1 - c) * (1 + c)) by nra. assert (0 <= (1 - c) * (1 - c) * (1 + c)) by nra. split; nra.
  - assert (0 <= (1 - c) * (1 + c)) by nra. assert (0 <= (1 - c) * (1 - c) * (1 + c)) by nra. split; nra.
Qed.
(** The flat-top window is negative at both ends for every size. *)
Theorem C30_flattop_ends n : (2 <= n)%nat -> exists w, flattop n = Ok w /\ nth 0 w 0 < 0 /\ nth (n - 1) w 0 < 0.
Proof.
  intros Hn. destruct (C30_values n Hn) as (_ & _ & _ & _ & _ & E). eexists. split; [exact E|].
  assert (S := cosine_sum_sym flattop_c n Hn). set (w := map (cosine_sum flattop_c n) (seq 0 n)) in *.
  assert (L : length w = n) by (unfold w; rewrite map_length, seq_length; auto).
  assert (A : nth 0 w 0 < 0).
  { unfold w. destruct n as [|m]; [lia|]. cbn [seq map nth]. unfold cosine_sum, flattop_c. cbn [sumf length nth]. simpl INR at 2 4 6 8 10. 
    unfold Rdiv at 1. rewrite ?Rmult_0_r. unfold Rdiv. rewrite ?Rmult_0_r, ?Rmult_0_l, ?cos_0. simpl pow. lra. }
  split; auto. unfold symmetric in S. rewrite <- S in A. rewrite rev_nth in A by lia. rewrite L in A. exact A.
Qed.
(** With an odd number of samples the middle one is the sum of the coefficients (1 up to the published digits). *)
Theorem C30_peak n win c : In (win, c) [(hanning, hanning_c); (hamming, hamming_c); (blackman, blackman_c); (blackman_harris, harris_c); (blackman_nutall, nutall_c); (flattop, flattop_c)] ->
  (1 <= n)%nat -> exists w, win (2 * n + 1)%nat = Ok w /\ nth n w 0 = rsum c /\ Rabs (rsum c - 1) < 1 / 10 ^ 8.
Proof.
  intros HI Hn. assert (H2 : (2 <= 2 * n + 1)%nat) by lia.
  assert (E : win (2 * n + 1)%nat = Ok (map (cosine_sum c (2 * n + 1)) (seq 0 (2 * n + 1)))).
  { destruct (C30_values (2 * n + 1) H2) as (A1 & A2 & A3 & A4 & A5 & A6). simpl in HI. destruct HI as [E|[E|[E|[E|[E|[E|[]]]]]]]; injection E as <- <-; auto. }
  eexists. split; [exact E|]. split.
  - rewrite (nth_indep _ 0 (cosine_sum c (2 * n + 1) 0)) by (rewrite map_length, seq_length; lia). rewrite map_nth, seq_nth by lia. cbn [plus].
    unfold cosine_sum. rewrite (rsum_sumf c). apply sumf_ext. intros k Hk.
    replace (2 * PI * INR k * INR n / (INR (2 * n + 1) - 1)) with (INR k * PI).
    2:{ rewrite plus_INR, mult_INR. simpl. field. assert (0 < INR n) by (apply lt_0_INR; lia). lra. }
    assert (C : forall j, cos (INR j * PI) = (-1) ^ j).
    { induction j; [simpl; rewrite Rmult_0_l; apply cos_0|]. rewrite S_INR. replace ((INR j + 1) * PI) with (INR j * PI + PI) by ring. rewrite neg_cos, IHj. simpl. ring. }
    rewrite C. assert (Q : (-1) ^ k * (-1) ^ k = 1) by (rewrite <- Rpow_mult_distr; replace (-1 * -1) with 1 by ring; apply pow1).
    replace ((-1) ^ k * nth k c 0 * (-1) ^ k) with (((-1) ^ k * (-1) ^ k) * nth k c 0) by ring. rewrite Q. ring.
  - simpl in HI. destruct HI as [Q|[Q|[Q|[Q|[Q|[Q|[]]]]]]]; injection Q as _ <-; cbv [rsum fold_right hanning_c hamming_c blackman_c harris_c nutall_c flattop_c fold_left]; apply Rabs_def1; simpl pow; lra.
Qed.
(** A single-sample window has no finite value; an empty one writes nothing. *)
Theorem C30_tiny win : In win all_windows -> win 1%nat = NonFinite /\ win 0%nat = Ok [].
Proof.
  intros H. assert (Z : forall f, cosine_window f 0 = Ok []).
  { intros f. unfold cosine_window. rewrite rdiv_ok by (simpl; lra). reflexivity. }
  simpl in H. destruct H as [<-|[<-|[<-|[<-|[<-|[<-|[]]]]]]]; split; (apply cosine_window_one || apply Z).
Qed.
Theorem C30_rectangular n : exists w, boxcar n = Ok w /\ rectangular n = Ok w /\ length w = n /\ forall x, In x w -> x = 1.
Proof. exists (repeat 1 n). repeat split; auto; [apply repeat_length|]. intros x H. apply repeat_spec in H. auto. Qed.
Example C30_ex : (2 <= 5)%nat. Proof. lia. Qed.

(** *** Bartlett *)
Lemma triangle_sym c h n : 2 * c = INR n - 1 -> symmetric (map (triangle c h) (seq 0 n)).
Proof.
  intros Hc. apply sym_map. intros i Hi. unfold triangle. rewrite INR_flip by auto.
  replace (INR n - 1 - INR i - c) with (- (INR i - c)) by lra. unfold Rdiv. rewrite Ropp_mult_distr_l_reverse, Rabs_Ropp. reflexivity.
Qed.
Lemma triangle_in c h n : 2 * c = INR n - 1 -> 0 < h -> c <= h -> within01 (map (triangle c h) (seq 0 n)).
Proof.
  intros Hc Hh Hch x HX. apply in_map_seq in HX as [i [Hi ->]]. unfold triangle. assert (B : Rabs ((INR i - c) / h) <= 1).
  { unfold Rdiv. rewrite Rabs_mult, (Rabs_right (/ h)) by (apply Rle_ge, Rlt_le, Rinv_0_lt_compat; auto).
    apply Rmult_le_reg_r with h; auto. rewrite Rmult_assoc, Rinv_l, Rmult_1_r, Rmult_1_l by lra. apply Rle_trans with c; auto.
    assert (0 <= INR i) by apply pos_INR. assert (INR i + 1 <= INR n) by (rewrite <- S_INR; apply le_INR; lia). apply Rabs_le. lra. }
  pose proof (Rabs_pos ((INR i - c) / h)). lra.
Qed.
Theorem C31_bartlett n : (2 <= n)%nat -> exists w, bartlett n = Ok w /\
  w = map (triangle ((INR n - 1) / 2) ((INR n - 1) / 2)) (seq 0 n) /\ length w = n /\ symmetric w /\ within01 w.
Proof.
  intros Hn. pose proof (len1 n Hn) as L. unfold bartlett, ninv. rewrite rdiv_ok by lra. cbn [bind].
  set (m := if is_even (Z.of_nat n) then (n / 2)%nat else ((n + 1) / 2)%nat).
  assert (M : (m <= n)%nat /\ (forall i, (i < m)%nat -> 2 * INR i <= INR n - 1) /\ (forall i, (m <= i)%nat -> INR n - 1 <= 2 * INR i)).
  { destruct (C29_parity (Z.of_nat n)) as [_ [P _]]. destruct (P ltac:(lia)) as [_ PE]. clear P. 
    assert (D : (n = 2 * m \/ n + 1 = 2 * m)%nat).
    { unfold m. destruct (is_even (Z.of_nat n)) eqn:E.
      - left. destruct (proj1 PE eq_refl) as [k Hk]. assert (n = 2 * Z.to_nat k)%nat by lia. rewrite H at 2. rewrite (Nat.mul_comm 2 (Z.to_nat k)), Nat.div_mul by lia. lia.
      - right. assert (O : Z.Odd (Z.of_nat n)). { destruct (Z.Even_or_Odd (Z.of_nat n)) as [Q|Q]; auto. apply PE in Q. discriminate. }
        destruct O as [k Hk]. assert (n + 1 = (Z.to_nat k + 1) * 2)%nat by lia. rewrite H at 2. rewrite Nat.div_mul by lia. lia. }
    split; [lia|]. split; intros i Hi.
    - assert (Q : (2 * i + 1 <= n)%nat) by lia. apply le_INR in Q. rewrite plus_INR, mult_INR in Q. simpl in Q. lra.
    - assert (Q : (n <= 2 * i + 1)%nat) by lia. apply le_INR in Q. rewrite plus_INR, mult_INR in Q. simpl in Q. lra. }
  destruct M as [Mn [M1 M2]]. eexists. split; [reflexivity|].
  assert (E : map (fun i => 2 * INR i * (1 / (INR n - 1))) (seq 0 m) ++ map (fun i => 2 - 2 * INR i * (1 / (INR n - 1))) (seq m (n - m)) = map (triangle ((INR n - 1) / 2) ((INR n - 1) / 2)) (seq 0 n)).
  { replace (seq 0 n) with (seq 0 m ++ seq m (n - m)) by (rewrite <- seq_app; f_equal; lia). rewrite map_app. f_equal; apply map_ext_in; intros i Hi; apply in_seq in Hi; unfold triangle.
    - specialize (M1 i ltac:(lia)). rewrite Rabs_left1; [field; lra|]. apply Rmult_le_reg_r with ((INR n - 1) / 2); [lra|]. unfold Rdiv at 1. rewrite Rmult_assoc, Rinv_l by lra. lra.
    - specialize (M2 i ltac:(lia)). rewrite Rabs_right; [field; lra|]. apply Rle_ge. apply Rmult_le_reg_r with ((INR n - 1) / 2); [lra|]. unfold Rdiv at 2. rewrite Rmult_assoc, Rinv_l by lra. lra. }
  rewrite E. split; auto. split; [rewrite map_length, seq_length; auto|]. split; [apply triangle_sym; lra|apply triangle_in; lra].
Qed.
Theorem C31_bartlett_tiny : bartlett 1 = NonFinite /\ bartlett 0 = Ok [].
Proof.
  split; unfold bartlett, ninv; [simpl INR; rewrite Rminus_diag_eq by reflexivity; rewrite rdiv_zero; reflexivity|].
  rewrite rdiv_ok by (simpl; lra). reflexivity.
Qed.

(** *** Triangular *)
Lemma tri_loop_ok n : forall initial rem, rem <> 0 -> tri_loop n initial rem = Ok (map (fun i => 1 - Rabs ((initial + 2 * INR i) / rem)) (seq 0 n)).
Proof.
  induction n as [|n IH]; intros initial rem H; [reflexivity|]. cbn [tri_loop]. rewrite rdiv_ok by auto. cbn [bind]. rewrite IH by auto. cbn [bind seq map]. f_equal. f_equal.
  - simpl INR. rewrite Rmult_0_r, Rplus_0_r. reflexivity.
  - rewrite <- seq_shift, map_map. apply map_ext. intros i. rewrite S_INR. replace (initial + 2 + 2 * INR i) with (initial + 2 * (INR i + 1)) by ring. reflexivity.
Qed.
Lemma ieee_remainder2_val n : ieee_remainder2 (Z.of_nat n) = (if (n mod 4 =? 1)%nat then 1 else if (n mod 4 =? 3)%nat then -1 else 0)%Z.
Proof.
  pose proof (Nat.div_mod n 4 ltac:(lia)) as D. pose proof (Nat.mod_upper_bound n 4 ltac:(lia)) as U. set (q := (n / 4)%nat) in *. set (r := (n mod 4)%nat) in *. clearbody q r.
  unfold ieee_remainder2.
  assert (C : (r = 0 \/ r = 1 \/ r = 2 \/ r = 3)%nat) by lia. destruct C as [C|[C|[C|C]]]; subst r; subst n.
  - replace (Z.of_nat (4 * q + 0)) with (2 * (2 * Z.of_nat q))%Z by lia. rewrite Z.even_mul. cbn [Z.even orb]. replace (2 * (2 * Z.of_nat q) / 2)%Z with (2 * Z.of_nat q)%Z by (apply Z.div_unique with 0%Z; lia). simpl Nat.eqb. cbn iota. lia.
  - replace (Z.of_nat (4 * q + 1)) with (1 + 2 * (2 * Z.of_nat q))%Z by lia. rewrite Z.even_add_mul_2. cbn [Z.even]. replace ((1 + 2 * (2 * Z.of_nat q)) / 2)%Z with (2 * Z.of_nat q)%Z by (apply Z.div_unique with 1%Z; lia).
    rewrite Z.even_mul. cbn [Z.even orb]. simpl Nat.eqb. cbn iota. lia.
  - replace (Z.of_nat (4 * q + 2)) with (2 * (2 * Z.of_nat q + 1))%Z by lia. rewrite Z.even_mul. cbn [Z.even orb]. rewrite (Z.mul_comm 2 (2 * Z.of_nat q + 1)), Z.div_mul by lia. simpl Nat.eqb. cbn iota. lia.
  - replace (Z.of_nat (4 * q + 3)) with (1 + 2 * (2 * Z.of_nat q + 1))%Z by lia. rewrite Z.even_add_mul_2. cbn [Z.even]. replace ((1 + 2 * (2 * Z.of_nat q + 1)) / 2)%Z with (1 + 2 * Z.of_nat q)%Z by (apply Z.div_unique with 1%Z; lia).
    rewrite Z.even_add_mul_2. cbn [Z.even]. simpl Nat.eqb. cbn iota. lia.
Qed.
(** The half-width of the triangle: N/2 for even N, (N+1)/2 when N = 1 mod 4 and (N-1)/2 when N = 3 mod 4. *)
Definition tri_half (n : nat) : R := match (n mod 4)%nat with 1%nat => (INR n + 1) / 2 | 3%nat => (INR n - 1) / 2 | _ => INR n / 2 end.
Theorem C31_triangular n : (1 <= n)%nat -> exists w, triangular n = Ok w /\
  w = map (triangle ((INR n - 1) / 2) (tri_half n)) (seq 0 n) /\ length w = n /\ symmetric w /\ within01 w.
Proof.
  intros Hn. assert (N1 : 1 <= INR n) by (apply le_INR in Hn; simpl in Hn; lra).
  assert (Hr : INR n + IZR (ieee_remainder2 (Z.of_nat n)) = 2 * tri_half n /\ 0 < tri_half n /\ (INR n - 1) / 2 <= tri_half n).
  { rewrite ieee_remainder2_val. unfold tri_half. pose proof (Nat.mod_upper_bound n 4 ltac:(lia)). destruct (n mod 4)%nat as [|[|[|[|k]]]] eqn:E; simpl Nat.eqb; cbn iota; try lia.
    - rewrite Rplus_0_r. lra.
    - lra.
    - rewrite Rplus_0_r. lra.
    - assert (3 <= n)%nat by (pose proof (Nat.mod_le n 4 ltac:(lia)); lia). apply le_INR in H0. simpl in H0. lra. }
  destruct Hr as [Hr [Hp Hc]]. unfold triangular. rewrite Hr, tri_loop_ok by lra. eexists. split; [reflexivity|].
  assert (E : map (fun i => 1 - Rabs ((- (INR n - 1) + 2 * INR i) / (2 * tri_half n))) (seq 0 n) = map (triangle ((INR n - 1) / 2) (tri_half n)) (seq 0 n)).
  { apply map_ext. intros i. unfold triangle. f_equal. f_equal. field. lra. }
  rewrite E. split; auto. split; [rewrite map_length, seq_length; auto|]. split; [apply triangle_sym; lra|apply triangle_in; lra].
Qed.
(** The end samples vanish exactly for sizes that are 3 modulo 4: two odd sizes get two different windows. *)
Theorem C31_triangular_ends n : (2 <= n)%nat -> exists w, triangular n = Ok w /\ (nth 0 w 0 = 0 <-> (n mod 4 = 3)%nat).
Proof.
  intros Hn. destruct (C31_triangular n ltac:(lia)) as [w [E [V _]]]. exists w. split; auto.
  pose proof (len1 n Hn). destruct n as [|m]; [lia|]. rewrite V. cbn [seq map nth]. unfold triangle. simpl (INR 0).
  assert (P : 0 < tri_half (S m)) by (unfold tri_half; destruct ((S m) mod 4)%nat as [|[|[|[|k]]]]; lra).
  assert (Q : Rabs ((0 - (INR (S m) - 1) / 2) / tri_half (S m)) = ((INR (S m) - 1) / 2) / tri_half (S m)).
  { replace ((0 - (INR (S m) - 1) / 2) / tri_half (S m)) with (- (((INR (S m) - 1) / 2) / tri_half (S m))) by (field; lra). rewrite Rabs_Ropp. apply Rabs_right. apply Rle_ge.
    unfold Rdiv at 1. apply Rmult_le_pos; [lra|]. apply Rlt_le, Rinv_0_lt_compat; auto. }
  rewrite Q. split.
  - intros Z. assert (T : (INR (S m) - 1) / 2 = tri_half (S m)).
    { apply Rmult_eq_reg_r with (/ tri_half (S m)); [|apply Rinv_neq_0_compat; lra]. rewrite Rinv_r by lra. unfold Rdiv at 1 in Z. lra. }
    unfold tri_half in T. destruct ((S m) mod 4)%nat as [|[|[|[|k]]]] eqn:M; auto; lra.
  - intros M. unfold tri_half. rewrite M. field. lra.
Qed.

(** *** Welch *)
Lemma mapM_Ok_map {A B} (f : A -> res B) g l : (forall x, In x l -> f x = Ok (g x)) -> mapM f l = Ok (map g l).
Proof. induction l as [|a l IH]; intros H; [reflexivity|]. cbn [mapM map]. rewrite (H a (or_introl eq_refl)). cbn [bind]. rewrite IH by (intros; apply H; right; auto). reflexivity. Qed.
Theorem C31_welch_actual n : (2 <= n)%nat -> exists w, welch n = Ok w /\ length w = n /\ within01 w /\
  w = map (parabola (INR (n / 2)) (INR (n / 2))) (seq 0 n) /\
  (symmetric w <-> Nat.Odd n) /\ (Nat.Odd n -> w = map (parabola ((INR n - 1) / 2) ((INR n - 1) / 2)) (seq 0 n)).
Proof.
  intros Hn. set (L := (n / 2)%nat). assert (HL : (1 <= L)%nat) by (unfold L; apply (Nat.div_le_mono 2 n 2); lia).
  assert (LP : 0 < INR L) by (apply lt_0_INR; lia). exists (map (parabola (INR L) (INR L)) (seq 0 n)). split.
  { unfold welch. fold L. apply mapM_Ok_map. intros i _. rewrite rdiv_ok by lra. cbn [bind]. unfold parabola, nsquare. f_equal. ring. }
  split; [rewrite map_length, seq_length; auto|]. assert (D : (n = 2 * L \/ n = 2 * L + 1)%nat).
  { pose proof (Nat.div_mod n 2 ltac:(lia)) as Q. pose proof (Nat.mod_upper_bound n 2 ltac:(lia)). fold L in Q. lia. }
  split.
  { intros x HX. apply in_map_seq in HX as [i [Hi ->]]. unfold parabola. assert (B : -1 <= (INR i - INR L) / INR L <= 1).
    { assert (INR i <= 2 * INR L) by (assert (Q : (i <= 2 * L)%nat) by lia; apply le_INR in Q; rewrite mult_INR in Q; simpl in Q; lra). pose proof (pos_INR i).
      split; apply Rmult_le_reg_r with (INR L); auto; unfold Rdiv; rewrite Rmult_assoc, Rinv_l by lra; lra. }
    set (u := (INR i - INR L) / INR L) in *. clearbody u. nra. }
  split; auto. assert (OD : Nat.Odd n -> (INR n - 1) / 2 = INR L).
  { intros [k Hk]. assert (n = 2 * L + 1)%nat by lia. rewrite H, plus_INR, mult_INR. simpl. field. }
  split; [split|].
  - intros S. destruct D as [D|D]; [|exists L; auto]. exfalso. unfold symmetric in S.
    assert (Q : nth 0 (map (parabola (INR L) (INR L)) (seq 0 n)) 0 = nth (n - 1) (map (parabola (INR L) (INR L)) (seq 0 n)) 0).
    { rewrite <- S at 1. rewrite rev_nth by (rewrite map_length, seq_length; lia). rewrite map_length, seq_length. reflexivity. }
    rewrite !(nth_indep _ 0 (parabola (INR L) (INR L) 0)) in Q by (rewrite map_length, seq_length; lia). rewrite !map_nth, !seq_nth in Q by lia. cbn [plus] in Q.
    unfold parabola in Q. replace (INR (n - 1)) with (2 * INR L - 1) in Q by (rewrite minus_INR by lia; rewrite D, mult_INR; simpl; ring). simpl (INR 0) in Q.
    assert (Q' : (INR L) ^ 2 = (INR L - 1) ^ 2).
    { replace ((0 - INR L) / INR L) with (-1) in Q by (field; lra). assert (Q2 : ((2 * INR L - 1 - INR L) / INR L) ^ 2 = 1) by lra.
      replace ((INR L - 1) ^ 2) with (((2 * INR L - 1 - INR L) / INR L) ^ 2 * (INR L) ^ 2) by (field; lra). rewrite Q2. ring. }
    assert (1 <= INR L) by (apply le_INR in HL; simpl in HL; lra). nra.
  - intros O. apply sym_map. intros i Hi. unfold parabola. rewrite INR_flip by auto. specialize (OD O).
    replace (INR n - 1 - INR i - INR L) with (- (INR i - INR L)) by lra. unfold Rdiv. ring.
  - intros O. rewrite (OD O). reflexivity.
Qed.
Theorem C31_welch_refuted n : (1 <= n)%nat -> exists w, welch (2 * n) = Ok w /\ ~ symmetric w.
Proof.
  intros H. destruct (C31_welch_actual (2 * n) ltac:(lia)) as [w [E [_ [_ [_ [S _]]]]]]. exists w. split; auto. intros Q. apply S in Q. destruct Q as [k Q]. lia.
Qed.
Theorem C31_welch_tiny : welch 1 = NonFinite /\ welch 0 = Ok [].
Proof. split; [|reflexivity]. unfold welch. cbn [seq mapM]. change (1 / 2)%nat with 0%nat. simpl INR. rewrite rdiv_zero. reflexivity. Qed.

Print Assumptions C30_values.
Print Assumptions C30_symmetric_bounded.
Print Assumptions C30_unit_range.
Print Assumptions C30_flattop_ends.
Print Assumptions C30_peak.
Print Assumptions C30_tiny.
Print Assumptions C30_rectangular.
Print Assumptions C31_bartlett.
Print Assumptions C31_bartlett_tiny.
Print Assumptions C31_triangular.
Print Assumptions C31_triangular_ends.
Print Assumptions C31_welch_actual.
Print Assumptions C31_welch_refuted.
Print Assumptions C31_welch_tiny.
