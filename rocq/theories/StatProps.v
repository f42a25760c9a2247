(** Theorems C32-C35, C66: statistics. *)
From Verif Require Import BaseProofs RealBase RealBaseProofs StatModel StatSpec StatProofs.
Local Open Scope R_scope.

(** ** C32 *)
Theorem C32_min_mean_max l : l <> [] -> exists mn m mx,
  stat_min l = Ok mn /\ stat_mean l = Ok m /\ stat_max l = Ok mx /\
  is_min l mn /\ is_max l mx /\ m = rsum l / INR (length l) /\ mn <= m <= mx.
Proof.
  intros H. destruct (stat_min_ok l H) as [mn [E1 I1]]. destruct (stat_max_ok l H) as [mx [E2 I2]].
  exists mn, (average l), mx. rewrite (stat_mean_ok l H). repeat (split; [solve [auto]|]).
  apply average_bounds; auto. intros x Hx. split; [apply I1|apply I2]; auto.
Qed.

Theorem C32_maxabs_minabs l : l <> [] -> exists mn mx,
  stat_minabs l = Ok mn /\ stat_maxabs l = Ok mx /\ is_min (map Rabs l) mn /\ is_max (map Rabs l) mx.
Proof. intros H. destruct (stat_minabs_ok l H) as [a [A1 A2]]. destruct (stat_maxabs_ok l H) as [b [B1 B2]]. exists a, b. auto. Qed.

Theorem C32_mean_affine l a b m : stat_mean l = Ok m -> stat_mean (map (fun x => a * x + b) l) = Ok (a * m + b).
Proof.
  intros E. assert (H : l <> []) by (intros ->; rewrite stat_mean_nil in E; discriminate).
  rewrite stat_mean_ok in E by auto. injection E as <-. change (map (fun x => a * x + b) l) with (affine a b l).
  rewrite stat_mean_ok; [rewrite average_affine by auto; reflexivity|]. destruct l; [contradiction|discriminate].
Qed.

(** The empty range has no minimum, maximum or finite mean. *)
Theorem C32_empty : stat_min [] = UB /\ stat_max [] = UB /\ stat_minabs [] = UB /\ stat_maxabs [] = UB /\ stat_mean [] = NonFinite.
Proof. repeat (split; [reflexivity|]). apply stat_mean_nil. Qed.

(** ** C33 *)
Theorem C33_moment_is_central k l : (0 < k)%nat -> l <> [] ->
  stat_moment k l = Ok (rsum (map (fun x => (x - rsum l / INR (length l)) ^ k) l) / INR (length l)).
Proof. intros H1 H2. rewrite stat_moment_ok by auto. rewrite central_avf. reflexivity. Qed.

Theorem C33_variance l : l <> [] -> exists v,
  stat_variance l = Ok v /\ 0 <= v /\ (v = 0 <-> is_constant l) /\
  v = rsum (map (fun x => (x - average l) ^ 2) l) / INR (length l) /\
  v = average (map (fun x => x * x) l) - average l * average l /\
  (forall a b, stat_variance (affine a b l) = Ok (a * a * v)) /\
  stat_stddev l = Ok (sqrt v).
Proof.
  intros H. exists (central 2 l). pose proof (central2_nonneg l H). unfold stat_stddev, stat_variance. rewrite stat_moment_ok by (auto; lia).
  split; auto. split; auto. split; [apply central2_zero; auto|]. split; [rewrite central_avf; reflexivity|]. split; [apply central2_steiner; auto|]. split.
  - intros a b. rewrite stat_moment_ok; [|lia|destruct l; [contradiction|discriminate]]. rewrite central_affine by auto. f_equal. simpl. ring.
  - cbn [bind]. apply rsqrt_ok. auto.
Qed.

Theorem C33_skewness_kurtosis l : l <> [] -> ~ is_constant l -> exists s k,
  stat_skewness l = Ok s /\ stat_kurtosis l = Ok k /\
  s = central 3 l / (sqrt (central 2 l)) ^ 3 /\ k = central 4 l / (sqrt (central 2 l)) ^ 4 /\
  1 <= k /\ s * s + 1 <= k /\
  (forall a b, 0 < a -> stat_skewness (affine a b l) = Ok s /\ stat_kurtosis (affine a b l) = Ok k).
Proof.
  intros H N. pose proof (central2_pos l H N) as P. pose proof (sqrt_lt_R0 _ P) as SP. pose proof (sqrt_sqrt _ (Rlt_le _ _ P)) as SS.
  rewrite (skewness_ok l H N), (kurtosis_ok l H N). do 2 eexists. split; [reflexivity|]. split; [reflexivity|].
  assert (KS : (central 3 l / (central 2 l * sqrt (central 2 l))) * (central 3 l / (central 2 l * sqrt (central 2 l))) + 1 <= central 4 l / (central 2 l * central 2 l)).
  { pose proof (pearson l H) as Q. set (m2 := central 2 l) in *. set (m3 := central 3 l) in *. set (m4 := central 4 l) in *. set (r := sqrt m2) in *.
    replace (m3 / (m2 * r) * (m3 / (m2 * r)) + 1) with ((m3 * m3 + m2 * m2 * m2) / (m2 * m2 * m2)).
    2:{ transitivity (m3 * m3 / (m2 * m2 * (r * r)) + 1); [rewrite SS; field; lra|field; lra]. }
    replace (m4 / (m2 * m2)) with ((m2 * m4) / (m2 * m2 * m2)) by (field; lra).
    unfold Rdiv. apply Rmult_le_compat_r; [|lra]. left. apply Rinv_0_lt_compat. apply Rmult_lt_0_compat; auto. apply Rmult_lt_0_compat; auto. }
  split; [|split; [|split; [|split; [exact KS|]]]].
  - f_equal. simpl. rewrite <- SS at 1. ring.
  - f_equal. simpl. rewrite <- SS at 1 2. ring.
  - pose proof (Rle_0_sqr (central 3 l / (central 2 l * sqrt (central 2 l)))). unfold Rsqr in H0. lra.
  - intros a b Ha. assert (H' : affine a b l <> []) by (destruct l; [contradiction|discriminate]).
    assert (N' : ~ is_constant (affine a b l)) by (rewrite constant_affine by lra; auto).
    rewrite (skewness_ok _ H' N'), (kurtosis_ok _ H' N'). rewrite !central_affine by auto.
    assert (S2 : sqrt (a ^ 2 * central 2 l) = a * sqrt (central 2 l)).
    { rewrite sqrt_mult by (try apply pow2_ge_0; lra). rewrite sqrt_pow2 by lra. reflexivity. }
    rewrite S2. split; f_equal; field; lra.
Qed.

(** On a constant signal both are 0/0. *)
Theorem C33_constant_nonfinite l : l <> [] -> is_constant l -> stat_skewness l = NonFinite /\ stat_kurtosis l = NonFinite.
Proof.
  intros H HC. assert (E : central 2 l = 0) by (apply central2_zero; auto). unfold stat_skewness, stat_kurtosis. rewrite stat_mean_ok by auto. cbn [bind].
  rewrite !nth_moment_ok by (auto; lia). cbn [bind]. rewrite E. rewrite rsqrt_ok by lra. cbn [bind]. rewrite !Rmult_0_l, !rdiv_zero. auto.
Qed.

(** ** C34 *)
Theorem C34_mean_inequalities l : l <> [] -> all_positive l -> exists mn h g m mx,
  stat_min l = Ok mn /\ stat_harmonic_mean l = Ok h /\ stat_geometric_mean l = Ok g /\ stat_mean l = Ok m /\ stat_max l = Ok mx /\
  h = INR (length l) / rsum (map Rinv l) /\ 0 < g /\ g ^ length l = rprodl l /\
  mn <= h <= g /\ g <= m <= mx.
Proof.
  intros H P. destruct (stat_min_ok l H) as [mn [E1 I1]]. destruct (stat_max_ok l H) as [mx [E2 I2]].
  pose proof (inv_sum_pos l H P). pose proof (len_pos l H).
  exists mn, (/ avf Rinv l), (exp (avf ln l)), (average l), mx.
  rewrite harmonic_ok, geometric_ok, stat_mean_ok by auto. repeat (split; [solve [auto]|]).
  split; [unfold avf; field; lra|]. split; [apply exp_pos|]. split; [apply geometric_prod; auto|].
  split; [split; [apply hm_min; auto|apply hm_gm; auto]|]. split; [apply am_gm; auto|].
  apply (average_bounds l mn mx); auto. intros x Hx. split; [apply I1|apply I2]; auto.
Qed.

(** A non-positive sample has no finite logarithm; a zero sample no finite reciprocal. *)
Theorem C34_outside_domain l : (exists x, In x l /\ x <= 0) -> stat_geometric_mean l = NonFinite.
Proof.
  intros [x [Hx Hn]]. unfold stat_geometric_mean. enough (E : forall a, accumulateM (fun prev x => bind (rlog x) (fun lx => Ok (prev + lx))) a l = NonFinite) by (rewrite E; reflexivity).
  induction l as [|y l IH]; [destruct Hx|]. intros a. cbn [accumulateM]. unfold rlog at 1. destruct (Rlt_dec 0 y) as [Hy|Hy]; cbn [bind]; auto.
  apply IH. destruct Hx as [->|Hx]; auto. lra.
Qed.

(** ** C35 *)
Theorem C35_peak l : l <> [] -> exists i v, stat_peak l = Ok (i, v) /\ nth_error l i = Some v /\ is_max l v /\
  (forall j x, (j < i)%nat -> nth_error l j = Some x -> x < v).
Proof.
  intros H. destruct (max_element_spec idk l H) as [i [v [E [A [B C]]]]]. exists i, v. split; auto. split; auto. split; [|exact C].
  split; [eapply nth_error_In; eauto|exact B].
Qed.
(** The absolute peak: position and signed value of the first sample of greatest magnitude. *)
Theorem C35_peakabs l : l <> [] -> exists i v, stat_peakabs l = Ok (i, v) /\ nth_error l i = Some v /\ is_max (map Rabs l) (Rabs v) /\
  (forall j x, (j < i)%nat -> nth_error l j = Some x -> Rabs x < Rabs v).
Proof.
  intros H. destruct (max_element_spec Rabs l H) as [i [v [E [A [B C]]]]]. exists i, v. split; auto. split; auto. split; [|exact C].
  split; [apply in_map; eapply nth_error_In; eauto|]. intros x Hx. apply in_map_iff in Hx as [y [<- Hy]]. auto.
Qed.

(** ** C66 *)
Lemma powZ_pos x b : 0 < x -> 0 < powerRZ x b. Proof. apply powerRZ_lt. Qed.
Lemma generalized_ok l b : l <> [] -> all_positive l -> b <> 0%Z ->
  stat_generalized_mean l b = Ok (Rpower (avf (fun x => powerRZ x b) l) (1 / IZR b)) /\ 0 < avf (fun x => powerRZ x b) l.
Proof.
  intros H P Hb. assert (HB : IZR b <> 0) by (apply not_0_IZR; auto).
  assert (HP : 0 < avf (fun x => powerRZ x b) l).
  { unfold avf. apply Rdiv_lt_0_compat; [|apply len_pos; auto]. destruct l as [|x l]; [contradiction|]. cbn [map rsum].
    pose proof (powZ_pos x b (P x (or_introl eq_refl))). assert (0 <= rsum (map (fun x => powerRZ x b) l)); [|lra].
    apply rsum_nonneg. intros y Hy. apply in_map_iff in Hy as [z [<- Hz]]. left. apply powZ_pos, P. right; auto. }
  split; auto. unfold stat_generalized_mean. rewrite (accM_plus (fun x => rpowz x b) (fun x => powerRZ x b)).
  2:{ intros x Hx. pose proof (P x Hx). unfold rpowz. destruct (Req_EM_T x 0); [lra|reflexivity]. }
  cbn [bind]. rewrite rdiv_ok by (apply len_neq0; auto). cbn [bind]. rewrite Rplus_0_l. destruct (Z.eq_dec b 0); [contradiction|].
  rewrite rdiv_ok by auto. cbn [bind]. unfold rpow. fold (avf (fun x => powerRZ x b) l). destruct (Rlt_dec 0 (avf (fun x => powerRZ x b) l)); [reflexivity|contradiction].
Qed.
Lemma Rpower_powerRZ x b : 0 < x -> Rpower x (IZR b) = powerRZ x b.
Proof. intros. symmetry. apply powerRZ_Rpower; auto. Qed.
Lemma Rpower_root x b : 0 < x -> b <> 0%Z -> Rpower (powerRZ x b) (1 / IZR b) = x.
Proof.
  intros H Hb. rewrite <- Rpower_powerRZ by auto. rewrite Rpower_mult. assert (IZR b <> 0) by (apply not_0_IZR; auto).
  replace (IZR b * (1 / IZR b)) with 1 by (field; auto). apply Rpower_1; auto.
Qed.
Lemma powZ_le_pos x y b : (0 <= b)%Z -> 0 < x -> x <= y -> powerRZ x b <= powerRZ y b.
Proof.
  intros Hb Hx Hy. destruct (Req_dec x y) as [->|N]; [lra|]. rewrite <- !Rpower_powerRZ by lra. unfold Rpower. 
  assert (ln x < ln y) by (apply ln_increasing; lra). assert (0 <= IZR b) by (apply IZR_le; auto).
  destruct (Rle_lt_or_eq_dec _ _ H0) as [Q|Q]; [left; apply exp_increasing; nra|rewrite <- Q, !Rmult_0_l; lra].
Qed.
Lemma powZ_le_neg x y b : (b <= 0)%Z -> 0 < x -> x <= y -> powerRZ y b <= powerRZ x b.
Proof.
  intros Hb Hx Hy. destruct (Req_dec x y) as [->|N]; [lra|]. rewrite <- !Rpower_powerRZ by lra. unfold Rpower. 
  assert (ln x < ln y) by (apply ln_increasing; lra). assert (IZR b <= 0) by (apply IZR_le; auto).
  destruct (Rle_lt_or_eq_dec _ _ H0) as [Q|Q]; [left; apply exp_increasing; nra|rewrite Q, !Rmult_0_l; lra].
Qed.
Lemma Rpower_mono_base x y e : 0 < x -> x <= y -> 0 <= e -> Rpower x e <= Rpower y e.
Proof. intros. apply Rle_Rpower_l; lra. Qed.
Lemma Rpower_anti_base x y e : 0 < x -> x <= y -> e <= 0 -> Rpower y e <= Rpower x e.
Proof.
  intros Hx Hy He. replace e with (- (- e)) by ring. rewrite !Rpower_Ropp with (y := - e). apply Rinv_le_contravar; [unfold Rpower; apply exp_pos|].
  apply Rle_Rpower_l; lra.
Qed.

(** The power mean of positive data: its b-th power is the mean of the b-th powers, and it lies
    between the extremes; b = 1, -1, 2 are the arithmetic, harmonic and quadratic means. *)
Theorem C66_generalized_mean l b : l <> [] -> all_positive l -> b <> 0%Z -> exists g mn mx,
  stat_generalized_mean l b = Ok g /\ stat_min l = Ok mn /\ stat_max l = Ok mx /\
  0 < g /\ powerRZ g b = rsum (map (fun x => powerRZ x b) l) / INR (length l) /\ mn <= g <= mx.
Proof.
  intros H P Hb. destruct (generalized_ok l b H P Hb) as [E HP]. destruct (stat_min_ok l H) as [mn [E1 I1]]. destruct (stat_max_ok l H) as [mx [E2 I2]].
  do 3 eexists. split; [exact E|]. split; [exact E1|]. split; [exact E2|]. assert (HB : IZR b <> 0) by (apply not_0_IZR; auto).
  split; [unfold Rpower; apply exp_pos|]. split.
  { rewrite <- Rpower_powerRZ by (unfold Rpower; apply exp_pos). rewrite Rpower_mult. replace (1 / IZR b * IZR b) with 1 by (field; auto). rewrite Rpower_1 by auto. reflexivity. }
  pose proof (P mn (proj1 I1)) as Pmn. pose proof (P mx (proj1 I2)) as Pmx.
  destruct (Z_lt_le_dec 0 b) as [B|B].
  - assert (0 < 1 / IZR b) by (apply Rdiv_lt_0_compat; [lra|apply IZR_lt; auto]). rewrite <- (Rpower_root mn b), <- (Rpower_root mx b) by auto. split; apply Rpower_mono_base; try lra.
    + apply powZ_pos; auto.
    + rewrite <- (avf_const (powerRZ mn b) l H). apply avf_le; auto. intros x Hx. apply powZ_le_pos; try lia; auto. apply I1; auto.
    + rewrite <- (avf_const (powerRZ mx b) l H). apply avf_le; auto. intros x Hx. apply powZ_le_pos; try lia; auto. apply I2; auto.
  - assert (IZR b < 0) by (apply IZR_lt; lia). assert (1 / IZR b <= 0) by (unfold Rdiv; rewrite Rmult_1_l; left; apply Rinv_lt_0_compat; auto).
    rewrite <- (Rpower_root mn b), <- (Rpower_root mx b) by auto. split; apply Rpower_anti_base; try lra.
    + rewrite <- (avf_const (powerRZ mn b) l H). apply avf_le; auto. intros x Hx. apply powZ_le_neg; try lia; auto. apply I1; auto.
    + apply powZ_pos; auto.
    + rewrite <- (avf_const (powerRZ mx b) l H). apply avf_le; auto. intros x Hx. apply powZ_le_neg; try lia; auto. apply I2; auto.
Qed.

Theorem C66_generalized_mean_cases l : l <> [] -> all_positive l ->
  stat_generalized_mean l 1 = stat_mean l /\ stat_generalized_mean l (-1) = stat_harmonic_mean l /\
  stat_generalized_mean l 2 = Ok (sqrt (sumsq l / INR (length l))) /\
  stat_generalized_mean l 0 = Ok 1.
Proof.
  intros H P. destruct (generalized_ok l 1 H P ltac:(lia)) as [E1 P1]. destruct (generalized_ok l (-1) H P ltac:(lia)) as [E2 P2]. destruct (generalized_ok l 2 H P ltac:(lia)) as [E3 P3].
  rewrite E1, E2, E3. split; [|split; [|split]].
  - rewrite stat_mean_ok by auto. f_equal. replace (1 / 1) with 1 by field. rewrite Rpower_1 by auto. rewrite average_avf. apply avf_ext. intros. simpl. ring.
  - rewrite harmonic_ok by auto. f_equal. replace (1 / -1) with (- (1)) by field. rewrite Rpower_Ropp, Rpower_1 by auto. f_equal. apply avf_ext. intros. simpl. rewrite Rmult_1_r. reflexivity.
  - f_equal. unfold Rdiv at 1. rewrite Rmult_1_l, Rpower_sqrt by auto. f_equal. unfold sumsq, avf. f_equal. apply rsum_map_ext. intros. simpl. ring.
  - unfold stat_generalized_mean. rewrite (accM_plus (fun x => rpowz x 0) (fun x => 1)).
    2:{ intros x Hx. pose proof (P x Hx). unfold rpowz. destruct (Req_EM_T x 0); [lra|reflexivity]. }
    cbn [bind]. rewrite rdiv_ok by (apply len_neq0; auto). cbn [bind]. rewrite Rplus_0_l, rsum_map_const. destruct (Z.eq_dec 0 0); [|lia].
    pose proof (len_neq0 l H). destruct (Req_EM_T (INR (length l) * 1 / INR (length l)) 1) as [|N]; auto. exfalso. apply N. field. auto.
Qed.

(** The limit b -> 0 of the power mean is the geometric mean; the code returns 1 instead. *)
Theorem C66_generalized_mean_zero_refuted : exists l, l <> [] /\ all_positive l /\ stat_generalized_mean l 0 <> stat_geometric_mean l.
Proof.
  exists [4]. assert (P : all_positive [4]) by (intros x [<-|[]]; lra). split; [discriminate|]. split; auto.
  rewrite (proj2 (proj2 (proj2 (C66_generalized_mean_cases [4] ltac:(discriminate) P)))). rewrite geometric_ok by (auto; discriminate).
  intros E. injection E as E. unfold avf in E. simpl in E. replace ((ln 4 + 0) / 1) with (ln 4) in E by field. rewrite exp_ln in E; lra.
Qed.

(** An odd order above one is undefined on data of negative mean power. *)
Theorem C66_generalized_mean_negative l k : l <> [] -> (forall x, In x l -> x < 0) ->
  stat_generalized_mean l (2 * Z.of_nat (S k) + 1) = NonFinite.
Proof.
  intros H P. set (b := (2 * Z.of_nat (S k) + 1)%Z). assert (Hb : (3 <= b)%Z) by (unfold b; lia). assert (HB : 3 <= IZR b) by (apply IZR_le; auto).
  unfold stat_generalized_mean. rewrite (accM_plus (fun x => rpowz x b) (fun x => powerRZ x b)).
  2:{ intros x Hx. pose proof (P x Hx). unfold rpowz. destruct (Req_EM_T x 0); [lra|reflexivity]. }
  cbn [bind]. rewrite rdiv_ok by (apply len_neq0; auto). cbn [bind]. rewrite Rplus_0_l. destruct (Z.eq_dec b 0); [lia|].
  rewrite rdiv_ok by lra. cbn [bind].
  assert (N : rsum (map (fun x => powerRZ x b) l) / INR (length l) < 0).
  { assert (NP : forall x, x < 0 -> powerRZ x b < 0).
    { intros x Hx. assert (b = Z.of_nat (S (2 * S k))) as -> by (unfold b; lia). rewrite <- pow_powerRZ. cbn [pow]. rewrite pow_mult.
      assert (0 < (x ^ 2) ^ S k) by (apply pow_lt; nra). nra. }
    assert (rsum (map (fun x => powerRZ x b) l) < 0).
    { clear -H P NP. destruct l as [|y l]; [contradiction|]. cbn [map rsum]. pose proof (NP y (P y (or_introl eq_refl))).
      assert (0 <= rsum (map (fun x => -1 * powerRZ x b) l)).
      { apply rsum_nonneg. intros z Hz. apply in_map_iff in Hz as [w [<- Hw]]. pose proof (NP w (P w (or_intror Hw))). lra. }
      rewrite rsum_map_scal in H1. lra. }
    pose proof (len_pos l H). pose proof (Rinv_0_lt_compat _ H1). unfold Rdiv. nra. }
  unfold rpow. set (t := rsum _ / _) in *. destruct (Rlt_dec 0 t); [lra|].
  assert (I : Int_part (1 / IZR b) = 0%Z).
  { symmetry. assert (0 < / IZR b) by (apply Rinv_0_lt_compat; lra). assert (/ IZR b < 1) by (rewrite <- Rinv_1; apply Rinv_lt_contravar; lra).
    destruct (base_Int_part (1 / IZR b)) as [Q1 Q2]. unfold Rdiv in *.
    assert (IZR (Int_part (1 * / IZR b)) < 1) by lra. assert (-1 < IZR (Int_part (1 * / IZR b))) by lra. apply lt_IZR in H2, H3. lia. }
  rewrite I. assert (0 < / IZR b) by (apply Rinv_0_lt_compat; lra). destruct (Req_EM_T 0 (1 / IZR b)); [unfold Rdiv in *; lra|]. destruct (Req_EM_T t 0); [lra|reflexivity].
Qed.

Lemma norm_acc l : forall a, accumulate (fun a x => a + Rabs x * Rabs x) a l = a + sumsq l.
Proof.
  intros a. rewrite (accumulate_plus (fun x => Rabs x * Rabs x)). f_equal. apply rsum_map_ext. intros x _.
  change (Rabs x * Rabs x) with (Rsqr (Rabs x)). rewrite <- Rsqr_abs. reflexivity.
Qed.
(** The L2 norm is a norm. *)
Theorem C66_norm l : exists r, stat_norm l = Ok r /\ 0 <= r /\ r * r = sumsq l /\ (r = 0 <-> (forall x, In x l -> x = 0)) /\
  (forall c, stat_norm (map (Rmult c) l) = Ok (Rabs c * r)).
Proof.
  assert (NN : forall l, 0 <= sumsq l). { intros l0. apply rsum_nonneg. intros x Hx. apply in_map_iff in Hx as [y [<- _]]. apply Rle_0_sqr. }
  exists (sqrt (sumsq l)). unfold stat_norm. rewrite norm_acc, Rplus_0_l, rsqrt_ok by auto. split; auto. split; [apply sqrt_pos|].
  split; [apply sqrt_sqrt; auto|]. split.
  - split.
    + intros E. assert (S0 : sumsq l = 0) by (rewrite <- (sqrt_sqrt (sumsq l)), E by auto; ring). intros x Hx.
      assert (x * x = 0); [|nra]. apply (sum_zero_each (map (fun x => x * x) l)); auto; [intros y Hy; apply in_map_iff in Hy as [z [<- _]]; apply Rle_0_sqr|].
      apply (in_map (fun x => x * x)). auto.
    + intros Z. replace (sumsq l) with 0; [apply sqrt_0|]. symmetry. unfold sumsq. rewrite (rsum_map_ext _ (fun _ => 0)); [rewrite rsum_map_const; ring|]. intros x Hx. rewrite (Z x Hx). ring.
  - intros c. rewrite norm_acc, Rplus_0_l, rsqrt_ok by auto. f_equal. unfold sumsq. rewrite map_map.
    rewrite (rsum_map_ext _ (fun x => (c * c) * (x * x))) by (intros; ring). rewrite rsum_map_scal. rewrite sqrt_mult by (try apply Rle_0_sqr; apply NN).
    f_equal. change (c * c) with (Rsqr c). apply sqrt_Rsqr_abs.
Qed.

(** ** Concrete cases *)
Example stat_case : [1; 2; 4] <> [] /\ all_positive [1; 2; 4] /\ ~ is_constant [1; 2; 4].
Proof.
  split; [discriminate|]. split; [intros x [<-|[<-|[<-|[]]]]; lra|]. intros H. assert (1 = 2) by (apply H; simpl; auto). lra.
Qed.
Example stat_case_variance : stat_variance [1; 2; 3] = Ok (2 / 3).
Proof. unfold stat_variance. rewrite stat_moment_ok by (try discriminate; lia). f_equal. unfold central, average. simpl. field. Qed.

Print Assumptions C32_min_mean_max.
Print Assumptions C32_maxabs_minabs.
Print Assumptions C32_mean_affine.
Print Assumptions C32_empty.
Print Assumptions C33_moment_is_central.
Print Assumptions C33_variance.
Print Assumptions C33_skewness_kurtosis.
Print Assumptions C33_constant_nonfinite.
Print Assumptions C34_mean_inequalities.
Print Assumptions C34_outside_domain.
Print Assumptions C35_peak.
Print Assumptions C35_peakabs.
Print Assumptions C66_generalized_mean.
Print Assumptions C66_generalized_mean_cases.
Print Assumptions C66_generalized_mean_zero_refuted.
Print Assumptions C66_generalized_mean_negative.
Print Assumptions C66_norm.
