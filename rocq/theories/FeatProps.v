(** Theorems C25, C36-C41, C67-C70: normalisation and features. *)
From Verif Require Import BaseProofs RealBase RealBaseProofs AlgModel AlgSpec AlgProofs AlgProps StatModel StatSpec StatProofs FeatModel FeatProofs.
Local Open Scope R_scope.

(** ** C25 *)
Lemma abs_bound x b : Rabs x <= b -> - b <= x <= b.
Proof. unfold Rabs. destruct (Rcase_abs x); lra. Qed.
Lemma transform_div mem first n d f : legal mem first n d -> f <> 0 ->
  exists mem', mtransform (fun v => rdiv v f) mem first d n = Ok mem' /\ elementwise (fun x y => y = / f * x) mem first n d mem'.
Proof.
  intros HL Hf. destruct (elementwise_of (fun x => / f * x) (fun x y => y = / f * x) mem first n d HL ltac:(reflexivity)) as [m [E P]].
  exists m. split; auto. destruct HL as [L1 [L2 L3]]. rewrite mtransform_res in E |- * by auto. rewrite <- E. f_equal.
  apply mapM_ext. intros x _. rewrite rdiv_ok by auto. f_equal. unfold Rdiv. ring.
Qed.

Theorem C25_normalize mem first n d : legal mem first n d -> (0 < n)%nat -> ~ (forall x, In x (slice mem first n) -> x = 0) ->
  exists mem' c, normalize mem first n d = Ok mem' /\ 0 < c /\
    elementwise (fun x y => y = c * x /\ -1 <= y <= 1) mem first n d mem' /\
    (exists i y, (i < n)%nat /\ nth_error mem' (d + i) = Some y /\ Rabs y = 1).
Proof.
  intros HL Hn NZ. pose proof HL as [L1 [L2 L3]]. set (src := slice mem first n) in *.
  assert (Hs : src <> []) by (apply slice_nil_iff; auto).
  destruct (max_element_spec Rabs src Hs) as [i [v [E [A [B _]]]]].
  assert (Hv : 0 < Rabs v).
  { destruct (Rle_lt_or_eq_dec _ _ (Rabs_pos v)) as [P|Z]; auto. exfalso. apply NZ. intros x Hx. pose proof (B x Hx). pose proof (Rabs_pos x).
    destruct (Req_dec x 0); auto. apply Rabs_no_R0 in H1. lra. }
  destruct (transform_div mem first n d (Rabs v) HL ltac:(lra)) as [m [Em Pm]].
  exists m, (/ Rabs v). split; [|split; [apply Rinv_0_lt_compat; auto|split]].
  - unfold normalize. rewrite mrange_slice by auto. cbn [bind]. destruct n; [lia|]. fold src. unfold stat_maxabs, rmap. rewrite E. cbn [bind snd]. exact Em.
  - destruct Pm as [P1 [P2 P3]]. split; auto. split; auto. intros j x Hj Hx. destruct (P2 j x Hj Hx) as [y [Y1 Y2]]. exists y. split; auto. split; auto. subst y.
    assert (Rabs x <= Rabs v).
    { apply B. apply (nth_error_In src j). unfold src. rewrite nth_slice. destruct (Nat.ltb_spec j n); [auto|lia]. }
    change (-1) with (- (1)). apply (abs_bound (/ Rabs v * x) 1). rewrite Rabs_mult, (Rabs_pos_eq (/ Rabs v)) by (left; apply Rinv_0_lt_compat; auto).
    apply (Rmult_le_reg_l (Rabs v)); auto. rewrite <- Rmult_assoc, Rinv_r by lra. lra.
  - assert (Hi : (i < n)%nat) by (rewrite <- (slice_length mem first n L1); apply nth_error_Some; fold src; congruence).
    destruct Pm as [P1 [P2 P3]]. destruct (P2 i v Hi) as [y [Y1 Y2]].
    { unfold src in A. rewrite nth_slice in A. destruct (Nat.ltb_spec i n); [auto|lia]. }
    exists i, y. split; auto. split; auto. subst y. rewrite Rabs_mult, (Rabs_pos_eq (/ Rabs v)) by (left; apply Rinv_0_lt_compat; auto). apply Rinv_l. lra.
Qed.

Theorem C25_normalize_zero mem first n d : legal mem first n d -> (0 < n)%nat -> (forall x, In x (slice mem first n) -> x = 0) ->
  normalize mem first n d = NonFinite.
Proof.
  intros HL Hn Z. pose proof HL as [L1 [L2 L3]]. unfold normalize. rewrite mrange_slice by auto. cbn [bind].
  assert (Hs : slice mem first n <> []) by (apply slice_nil_iff; auto).
  destruct n as [|n]; [lia|]. destruct (stat_maxabs_ok _ Hs) as [m [E [I _]]]. rewrite E. cbn [bind].
  apply in_map_iff in I as [x [Q Hx]]. rewrite (Z x Hx), Rabs_R0 in Q. subst m. rewrite mtransform_res by auto.
  destruct (slice mem first (S n)) as [|y l]; [contradiction|]. cbn [mapM]. rewrite rdiv_zero. reflexivity.
Qed.

(** ** C36 *)
Theorem C36_energy_power_rssq l : l <> [] ->
  feat_energy l = Ok (rsum (map (fun x => x * x) l)) /\
  feat_power l = Ok (rsum (map (fun x => x * x) l) / INR (length l)) /\
  feat_rssq l = Ok (sqrt (rsum (map (fun x => x * x) l))).
Proof. intros H. rewrite energy_ok, power_ok, rssq_ok by auto. auto. Qed.

(** The accumulation of the RMS starts at one. *)
Theorem C36_rms_actual l : l <> [] -> feat_rms l = Ok (sqrt ((1 + rsum (map (fun x => x * x) l)) / INR (length l))).
Proof. apply rms_actual. Qed.

(** Hence it is wrong on every signal. *)
Theorem C36_rms_refuted l p r : l <> [] -> feat_power l = Ok p -> feat_rms l = Ok r -> sqrt p < r.
Proof.
  intros H Ep Er. rewrite power_ok in Ep by auto. rewrite rms_actual in Er by auto. injection Ep as <-. injection Er as <-.
  pose proof (sumsq_nonneg l). pose proof (len_pos l H). pose proof (Rinv_0_lt_compat _ H1). apply sqrt_lt_1; unfold Rdiv; nra.
Qed.

(** The RMS normaliser divides by that value: the output power is S/(1+S) instead of 1. *)
Theorem C36_normalize_rms_actual mem first n d : legal mem first n d -> (0 < n)%nat ->
  let S := sumsq (slice mem first n) in
  exists mem', normalize_rms mem first n d = Ok mem' /\ elementwise (fun x y => y = x / sqrt ((1 + S) / INR n)) mem first n d mem' /\
    feat_power (slice mem' d n) = Ok (S / (1 + S)).
Proof.
  intros HL Hn S. pose proof HL as [L1 [L2 L3]]. assert (Hs : slice mem first n <> []) by (apply slice_nil_iff; auto).
  pose proof (sumsq_nonneg (slice mem first n)) as S0. fold S in S0. pose proof (INR_neq0 n Hn) as Nn. assert (Np : 0 < INR n) by (apply lt_0_INR; auto).
  assert (Q : 0 < (1 + S) / INR n) by (apply Rdiv_lt_0_compat; lra). set (f := sqrt ((1 + S) / INR n)). assert (Hf : 0 < f) by (apply sqrt_lt_R0; auto).
  destruct (transform_div mem first n d f HL ltac:(lra)) as [m [Em Pm]]. exists m. split; [|split].
  - unfold normalize_rms. rewrite mrange_slice by auto. cbn [bind]. destruct n; [lia|]. rewrite rms_actual by auto. cbn [bind]. rewrite slice_length by auto. exact Em.
  - destruct Pm as [P1 [P2 P3]]. split; auto. split; auto. intros i x Hi Hx. destruct (P2 i x Hi Hx) as [y [Y1 ->]]. eexists. split; [exact Y1|]. unfold Rdiv. ring.
  - assert (SL : slice m d n = map (Rmult (/ f)) (slice mem first n)).
    { apply nth_error_ext_eq. intros i. rewrite nth_error_map, !nth_slice. destruct (Nat.ltb_spec i n); auto.
      destruct (nth_some mem (first + i)) as [x Hx]; [unfold in_range in L1; lia|]. destruct Pm as [_ [P2 _]]. destruct (P2 i x H Hx) as [y [Y1 ->]]. rewrite Y1, Hx. reflexivity. }
    rewrite SL. rewrite power_ok by (destruct (slice mem first n); [contradiction|discriminate]). f_equal. rewrite map_length, slice_length by auto.
    unfold sumsq. rewrite map_map. rewrite (rsum_map_ext _ (fun x => (/ f * / f) * (x * x))) by (intros; ring). rewrite rsum_map_scal. change (rsum (map (fun x => x * x) (slice mem first n))) with S.
    assert (FF : f * f = (1 + S) / INR n) by (apply sqrt_sqrt; lra). replace (/ f * / f) with (/ (f * f)) by (rewrite Rinv_mult; reflexivity). rewrite FF. field. split; lra.
Qed.

(** ** C37 *)
(** A sign change between neighbours: one is negative and the other is not. *)
Definition sign_change (x y : R) : Prop := (x < 0 /\ 0 <= y) \/ (0 <= x /\ y < 0).
Lemma sign_change_neg x y : (Bool.eqb (neg x) (neg y) = false) <-> sign_change x y.
Proof. unfold neg, sign_change. destruct (Rlt_dec x 0), (Rlt_dec y 0); simpl; split; intros H; try discriminate; auto; lra. Qed.
Fixpoint sign_changes (l : list R) (k : nat) : Prop :=
  match l with
  | x :: ((y :: _) as t) => (sign_change x y /\ exists j, k = S j /\ sign_changes t j) \/ (~ sign_change x y /\ sign_changes t k)
  | _ => k = O
  end.
Lemma sign_changes_count l : forall p, sign_changes (p :: l) (cross_count p l).
Proof.
  induction l as [|x l IH]; intros p; [reflexivity|]. cbn [cross_count].
  change (sign_changes (p :: x :: l) ?k) with ((sign_change p x /\ exists j, k = S j /\ sign_changes (x :: l) j) \/ (~ sign_change p x /\ sign_changes (x :: l) k)).
  destruct (Bool.eqb (neg x) (neg p)) eqn:E.
  - right. split; [|apply IH]. intros C. apply sign_change_neg in C. rewrite Bool.eqb_prop with (a := neg x) (b := neg p) in C by auto. rewrite Bool.eqb_reflx in C. discriminate.
  - left. split; [|eexists; split; [reflexivity|apply IH]]. apply sign_change_neg in E. unfold sign_change in *. tauto.
Qed.

Theorem C37_azcr l : (2 <= length l)%nat -> exists k, sign_changes l k /\ (k <= length l - 1)%nat /\
  feat_azcr l = Ok (INR k / INR (length l - 1)) /\ 0 <= INR k / INR (length l - 1) <= 1.
Proof.
  intros H. destruct l as [|p l]; simpl in H; [lia|]. exists (cross_count p l). split; [apply sign_changes_count|].
  cbn [length]. replace (S (length l) - 1)%nat with (length l) by lia. pose proof (cross_count_le l p) as K. split; auto.
  assert (HP : 0 < INR (length l)) by (apply lt_0_INR; lia). split.
  - unfold feat_azcr. rewrite azcr_loop_count, Rplus_0_l. cbn [length]. rewrite S_INR. replace (INR (length l) + 1 - 1) with (INR (length l)) by ring. apply rdiv_ok. lra.
  - apply le_INR in K. pose proof (pos_INR (cross_count p l)). pose proof (Rinv_0_lt_compat _ HP). split; unfold Rdiv; [nra|].
    apply (Rmult_le_reg_r (INR (length l))); auto. rewrite Rmult_assoc, Rinv_l by lra. lra.
Qed.

Lemma azcr_of (f : R -> R) l : (forall x, In x l -> neg (f x) = neg x) -> feat_azcr (map f l) = feat_azcr l.
Proof.
  destruct l as [|p l]; auto. intros H. unfold feat_azcr. cbn [map]. rewrite !azcr_loop_count. cbn [length]. rewrite map_length. f_equal. f_equal. f_equal.
  revert p H. induction l as [|x l IH]; intros p H; [reflexivity|]. cbn [map cross_count]. rewrite IH by (intros; apply H; right; auto).
  rewrite !H by (simpl; auto). reflexivity.
Qed.
Theorem C37_azcr_positive_scale l c : 0 < c -> feat_azcr (map (Rmult c) l) = feat_azcr l.
Proof. intros H. apply azcr_of. intros x _. unfold neg. destruct (Rlt_dec (c * x) 0), (Rlt_dec x 0); auto; nra. Qed.

Theorem C37_azcr_negative_scale l c : c < 0 -> (forall x, In x l -> x <> 0) -> feat_azcr (map (Rmult c) l) = feat_azcr l.
Proof.
  intros H NZ. destruct l as [|p l]; auto. unfold feat_azcr. cbn [map]. rewrite !azcr_loop_count. cbn [length]. rewrite map_length. f_equal. f_equal. f_equal.
  revert p NZ. induction l as [|x l IH]; intros p NZ; [reflexivity|]. cbn [map cross_count]. rewrite IH by (intros; apply NZ; right; auto). f_equal.
  pose proof (NZ p (or_introl eq_refl)). pose proof (NZ x (or_intror (or_introl eq_refl))).
  unfold neg. destruct (Rlt_dec (c * x) 0), (Rlt_dec x 0), (Rlt_dec (c * p) 0), (Rlt_dec p 0); auto; exfalso; nra.
Qed.
(** With samples that are exactly zero (counted as positive) inverting the signal can change the rate. *)
Theorem C37_azcr_inversion_refuted : exists l, (2 <= length l)%nat /\ feat_azcr (map (Rmult (-1)) l) <> feat_azcr l.
Proof.
  exists [0; 1]. split; [simpl; lia|]. unfold feat_azcr. cbn [map]. rewrite !azcr_loop_count. cbn [cross_count]. unfold neg.
  destruct (Rlt_dec (-1 * 0) 0); [lra|]. destruct (Rlt_dec (-1 * 1) 0); [|lra]. destruct (Rlt_dec 1 0); [lra|]. destruct (Rlt_dec 0 0); [lra|].
  simpl. rewrite !rdiv_ok by lra. intros E. injection E as E. lra.
Qed.

(** ** C38 *)
Theorem C38_amdf_asdf a : a <> [] -> exists m s, feat_amdf a = Ok m /\ feat_asdf a = Ok s /\ length m = length a /\ length s = length a /\
  (forall k, (k < length a)%nat ->
     nth_error m k = Some (sumf (fun j => Rabs (nth j a 0 - nth (j + k) a 0)) (length a - k) / INR (length a)) /\
     nth_error s k = Some (sumf (fun j => (nth j a 0 - nth (j + k) a 0) ^ 2) (length a - k) / INR (length a))) /\
  (forall v, In v m \/ In v s -> 0 <= v) /\ nth_error m 0 = Some 0 /\ nth_error s 0 = Some 0.
Proof.
  intros H. unfold feat_amdf, feat_asdf, feat_df. destruct a as [|x a]; [contradiction|]. remember (x :: a) as l eqn:El.
  rewrite !df_outer_ok by (auto; lia). do 2 eexists. split; [reflexivity|]. split; [reflexivity|]. rewrite !map_length, !seq_length. split; auto. split; auto.
  assert (HL : 0 < INR (length l)) by (apply len_pos; auto).
  assert (N : forall (F : nat -> R) k, (k < length l)%nat -> nth_error (map F (seq 0 (length l))) k = Some (F k)).
  { intros F k Hk. rewrite nth_error_map, (nth_error_nth' _ 0%nat) by (rewrite seq_length; auto). rewrite seq_nth by auto. reflexivity. }
  assert (D : forall A, 0 <= A -> 0 <= A / INR (length l)) by (intros; apply Rmult_le_pos; [auto|left; apply Rinv_0_lt_compat; auto]).
  split; [|split; [|split]].
  - intros k Hk. rewrite !N by auto. split; [reflexivity|]. do 2 f_equal. apply sumf_ext. intros j _. simpl. ring.
  - intros v [Hv|Hv]; apply in_map_iff in Hv as [k [<- _]]; apply D; apply sumf_nonneg; intros; [apply Rabs_pos|apply Rle_0_sqr].
  - rewrite N by (subst l; simpl; lia). f_equal. rewrite (sumf_ext _ (fun _ => 0)); [rewrite sumf_zero; field; lra|]. intros j _. rewrite Nat.add_0_r, (Rminus_diag_eq _ _ eq_refl). apply Rabs_R0.
  - rewrite N by (subst l; simpl; lia). f_equal. rewrite (sumf_ext _ (fun _ => 0)); [rewrite sumf_zero; field; lra|]. intros j _. rewrite Nat.add_0_r. ring.
Qed.
(** The loop of an empty range runs past its end. *)
Theorem C38_empty : feat_amdf [] = UB /\ feat_asdf [] = UB.
Proof. split; reflexivity. Qed.

(** ** C39 *)
Definition regression_slope (m f : list R) : R :=
  let N := INR (length m) in
  / rsum m * ((N * rsum2 Rmult m f - rsum f * rsum m) / (N * sumsq f - rsum f * rsum f)).

(** The length is measured after the iterator has reached the end, so the result is the reciprocal
    of the sum of the frequencies whatever the magnitudes. *)
Theorem C39_slope_actual m f : length m = length f -> rsum m <> 0 -> rsum f <> 0 -> feat_slope m f = Ok (/ rsum f).
Proof.
  intros H Hm Hf. unfold feat_slope. rewrite slope_loop_ok by auto. cbn [bind]. rewrite !Rplus_0_l. rewrite rdiv_ok by auto. cbn [bind].
  rewrite rdiv_ok by nra. f_equal. field. auto.
Qed.
Theorem C39_slope_refuted : exists m f, length m = length f /\ rsum m <> 0 /\ rsum f <> 0 /\ INR (length m) * sumsq f - rsum f * rsum f <> 0 /\
  feat_slope m f <> Ok (regression_slope m f).
Proof.
  exists [1; 1], [1; 2]. split; [reflexivity|]. split; [simpl; lra|]. split; [simpl; lra|]. split; [unfold sumsq; simpl; lra|].
  rewrite C39_slope_actual by (auto; simpl; lra). intros E. injection E as E. unfold regression_slope, sumsq in E. simpl in E.
  assert (Q : (1 + 1) * (1 * 1 + (1 * 2 + 0)) - (1 + (2 + 0)) * (1 + (1 + 0)) = 0) by ring.
  rewrite Q in E. unfold Rdiv in E. rewrite Rmult_0_l, Rmult_0_r in E. assert (0 < / (1 + (2 + 0))) by (apply Rinv_0_lt_compat; lra). lra.
Qed.

(** ** C40 *)
(** Flux: the second spectrum is normalised by the sum of the memory between the start of the first
    and the end of the second range.  When the two spectra are adjacent this is the sum of both. *)
Theorem C40_flux_actual mem n : (length mem = n + n)%nat ->
  let a := slice mem 0 n in let b := slice mem n n in rsum a <> 0 -> rsum a + rsum b <> 0 ->
  feat_flux euclidean mem 0 n n = Ok (rsum2 (fun x y => (x / rsum a - y / (rsum a + rsum b)) ^ 2) a b).
Proof.
  intros H a b Ha Hab. unfold feat_flux. rewrite (mrange_slice mem 0 n), (mrange_slice mem n n) by (unfold in_range; lia). cbn [bind].
  assert (E : mrange mem 0 (n + n) = Ok (a ++ b)).
  { change (n + n)%nat with (0 + (n + n))%nat at 1. rewrite mrange_slice by (unfold in_range; lia). f_equal. unfold a, b, slice. simpl skipn.
    replace (firstn (n + n) mem) with (firstn (n + n) (firstn n mem ++ skipn n mem)) by (rewrite firstn_skipn; reflexivity).
    rewrite firstn_app, firstn_length, Nat.min_l by lia. rewrite firstn_firstn, Nat.min_r by lia. f_equal. f_equal. lia. }
  rewrite E. cbn [bind]. fold a b. rewrite !accumulate_Rplus, !Rplus_0_l, rsum_app.
  rewrite (flux_loop_ok euclidean (rsum a) (rsum a + rsum b) (fun x y => (x / rsum a - y / (rsum a + rsum b)) ^ 2)); auto.
  - rewrite Rplus_0_l. reflexivity.
  - unfold a, b. rewrite !slice_length by (unfold in_range; lia). lia.
  - intros. cbn [ndistance]. f_equal. simpl. ring.
Qed.
(** A spectrum compared with a later copy of itself should give zero. *)
Theorem C40_flux_refuted : exists mem n, (length mem = n + n)%nat /\ slice mem 0 n = slice mem n n /\
  exists v, feat_flux euclidean mem 0 n n = Ok v /\ v <> 0.
Proof.
  exists [1; 1; 1; 1], 2%nat. split; [reflexivity|]. split; [reflexivity|]. eexists. split.
  - apply C40_flux_actual; [reflexivity| |]; simpl; lra.
  - simpl. unfold Rdiv. replace (1 + (1 + 0)) with 2 by ring. replace (2 + 2) with 4 by ring. lra.
Qed.
(** And with the second spectrum stored before the first there is no such memory range. *)
Theorem C40_flux_order_refuted d mem n first1 first2 : (first2 + n < first1)%nat -> in_range mem first1 n ->
  feat_flux d mem first1 n first2 = UB.
Proof.
  intros H H1. unfold feat_flux. rewrite (mrange_slice mem first1 n), (mrange_slice mem first2 n) by (unfold in_range in *; lia). cbn [bind].
  unfold mrange. destruct (Nat.leb_spec first1 (first2 + n)); [lia|reflexivity].
Qed.

(** Variation: documented as 1 - sum x*y / (sqrt(sum x) * sqrt(sum y)); the numerator used is sum y. *)
Theorem C40_variation_actual a b : length a = length b -> 0 < rsum a -> 0 < rsum b ->
  feat_variation a b = Ok (1 - rsum b / (sqrt (rsum a) * sqrt (rsum b))).
Proof.
  intros H Ha Hb. unfold feat_variation. rewrite variation_loop_ok by auto. cbn [bind]. rewrite !Rplus_0_l, !rsqrt_ok by lra. cbn [bind].
  pose proof (sqrt_lt_R0 _ Ha). pose proof (sqrt_lt_R0 _ Hb). rewrite rdiv_ok by nra. reflexivity.
Qed.
(** A second range that is too short is read past its end. *)
Theorem C40_variation_short a b : (length b < length a)%nat -> feat_variation a b = UB.
Proof.
  assert (G : forall a b s1 s2 s12, (length b < length a)%nat -> variation_loop a b s1 s2 s12 = UB).
  { clear. induction a as [|x a IH]; intros [|y b] s1 s2 s12 H; cbn in *; try lia; [reflexivity|]. apply IH. lia. }
  intros H. unfold feat_variation. rewrite G by exact H. reflexivity.
Qed.
Theorem C40_variation_refuted : exists a b, length a = length b /\ 0 < rsum a /\ 0 < rsum b /\
  feat_variation a b <> Ok (1 - rsum2 Rmult a b / (sqrt (rsum a) * sqrt (rsum b))).
Proof.
  exists [1; 0], [0; 1]. split; [reflexivity|]. split; [simpl; lra|]. split; [simpl; lra|]. rewrite C40_variation_actual by (auto; simpl; lra).
  intros E. injection E as E. simpl in E. replace (1 + (0 + 0)) with 1 in E by ring. replace (0 + (1 + 0)) with 1 in E by ring. rewrite sqrt_1 in E. lra.
Qed.

(** Decrease divides by the index of the first sample, 0: there is never a finite result. *)
Theorem C40_decrease_refuted l : l <> [] -> feat_decrease l = NonFinite.
Proof.
  destruct l as [|x l]; [contradiction|]. intros _. unfold feat_decrease. cbn [load nth_error bind decrease_loop]. rewrite rdiv_zero. reflexivity.
Qed.

(** Irregularity: the "difference of neighbours" is the constant one. *)
Theorem C40_irregularity_actual l : l <> [] -> sumsq (removelast l) <> 0 ->
  feat_irregularity l = Ok (INR (length l - 1) / sumsq (removelast l)).
Proof.
  intros H Hs. unfold feat_irregularity. destruct l as [|x l]; [contradiction|]. rewrite irregularity_loop_ok by auto. cbn [fst snd]. rewrite !Rplus_0_l. apply rdiv_ok; auto.
Qed.
Theorem C40_irregularity_refuted : exists l v, (2 <= length l)%nat /\ is_constant l /\ feat_irregularity l = Ok v /\ v <> 0.
Proof.
  exists [1; 1], 1. split; [simpl; lia|]. split; [intros x y [<-|[<-|[]]] [<-|[<-|[]]]; reflexivity|]. split; [|lra].
  rewrite C40_irregularity_actual by (try discriminate; unfold sumsq; simpl; lra). f_equal. unfold sumsq. simpl. field.
Qed.

(** ** C41 *)
Definition distribution (a : list R) : Prop := (forall x, In x a -> 0 <= x) /\ 0 < rsum a.

Theorem C41_centroid_spread a b : distribution a -> length a = length b -> exists c s,
  feat_weighted_centroid a b = Ok c /\ feat_weighted_spread a b = Ok s /\
  c = rsum2 (fun x y => y * x) a b / rsum a /\
  (forall lo hi, (forall y, In y b -> lo <= y <= hi) -> lo <= c <= hi) /\
  0 <= s /\ s * s = rsum2 (fun x y => (y - c) * (y - c) * x) a b / rsum a /\
  (s = 0 <-> (forall i x y, nth_error a i = Some x -> nth_error b i = Some y -> x <> 0 -> y = c)) /\
  (forall k, 0 < k -> feat_weighted_centroid (map (Rmult k) a) b = Ok c /\ feat_weighted_spread (map (Rmult k) a) b = Ok s).
Proof.
  intros [HN HS] HL. set (c := rsum2 (fun x y => y * x) a b / rsum a). set (q := rsum2 (fun x y => (y - c) * (y - c) * x) a b / rsum a).
  assert (NN : forall i x y, nth_error a i = Some x -> nth_error b i = Some y -> 0 <= (y - c) * (y - c) * x).
  { intros i x y Hx _. apply Rmult_le_pos; [apply Rle_0_sqr|]. apply HN. eapply nth_error_In; eauto. }
  assert (Q0 : 0 <= rsum2 (fun x y => (y - c) * (y - c) * x) a b) by (apply rsum2_nonneg; auto).
  assert (Q : 0 <= q) by (apply Rmult_le_pos; [auto|left; apply Rinv_0_lt_compat; auto]).
  assert (EC : feat_weighted_centroid a b = Ok c) by (unfold feat_weighted_centroid; rewrite wcentroid_ok by lia; cbn [bind fst snd]; rewrite !Rplus_0_l, rdiv_ok by lra; reflexivity).
  assert (ES : feat_weighted_spread a b = Ok (sqrt q)).
  { unfold feat_weighted_spread. rewrite EC. cbn [bind]. rewrite wspread_ok by lia. cbn [bind fst snd]. rewrite !Rplus_0_l, rdiv_ok by lra. cbn [bind]. apply rsqrt_ok; auto. }
  exists c, (sqrt q). split; auto. split; auto. split; auto. split; [|split; [apply sqrt_pos|split; [apply sqrt_sqrt; auto|split]]].
  - intros lo hi HB. assert (lo * rsum a <= rsum2 (fun x y => y * x) a b <= hi * rsum a).
    { apply rsum2_bounds; [lia|]. intros i x y Hx Hy. pose proof (HN x (nth_error_In _ _ Hx)). pose proof (HB y (nth_error_In _ _ Hy)). nra. }
    unfold c. split; apply (Rmult_le_reg_r (rsum a)); auto; unfold Rdiv; rewrite Rmult_assoc, Rinv_l by lra; lra.
  - split.
    + intros E. assert (Z : q = 0) by (rewrite <- (sqrt_sqrt q), E by auto; ring).
      assert (Z0 : rsum2 (fun x y => (y - c) * (y - c) * x) a b = 0).
      { apply (Rmult_eq_reg_r (/ rsum a)); [|apply Rinv_neq_0_compat; lra]. unfold q, Rdiv in Z. rewrite Z. ring. }
      intros i x y Hx Hy Nx. pose proof (proj1 (rsum2_zero _ a b NN) Z0 i x y Hx Hy) as Z1. simpl in Z1.
      apply Rmult_integral in Z1 as [Z1|Z1]; [|contradiction]. apply Rmult_integral in Z1 as [Z1|Z1]; lra.
    + intros P. assert (Z0 : rsum2 (fun x y => (y - c) * (y - c) * x) a b = 0).
      { apply (proj2 (rsum2_zero _ a b NN)). intros i x y Hx Hy. destruct (Req_dec x 0) as [->|Nx]; [ring|]. rewrite (P i x y Hx Hy Nx). ring. }
      unfold q. rewrite Z0. unfold Rdiv. rewrite Rmult_0_l. apply sqrt_0.
  - intros k Hk. assert (EC' : feat_weighted_centroid (map (Rmult k) a) b = Ok c).
    { unfold feat_weighted_centroid. rewrite wcentroid_ok by (rewrite map_length; lia). cbn [bind fst snd]. rewrite !Rplus_0_l, rsum_scal.
      rewrite (rsum2_scal _ (fun x y => y * x) k k) by (intros; ring). rewrite rdiv_ok by nra. f_equal. unfold c. field. lra. }
    split; auto. unfold feat_weighted_spread. rewrite EC'. cbn [bind]. rewrite wspread_ok by (rewrite map_length; lia). cbn [bind fst snd]. rewrite !Rplus_0_l, rsum_scal.
    rewrite (rsum2_scal _ (fun x y => (y - c) * (y - c) * x) k k) by (intros; ring). rewrite rdiv_ok by nra. cbn [bind].
    replace (k * rsum2 (fun x y => (y - c) * (y - c) * x) a b / (k * rsum a)) with q by (unfold q; field; lra). apply rsqrt_ok; auto.
Qed.
(** The versions without centres use the positions 0, 1, 2, ... as centres. *)
Theorem C41_index_centres l : feat_centroid l = feat_weighted_centroid l (map INR (seq 0 (length l))) /\
  feat_spread l = feat_weighted_spread l (map INR (seq 0 (length l))).
Proof. split; [apply centroid_weighted|apply spread_weighted]. Qed.

(** ** C67: crest, entropy, roll-off *)
Lemma sumabs_ge l x : In x l -> Rabs x <= rsum (map Rabs l).
Proof.
  induction l as [|y l IH]; intros H; [destruct H|]. cbn [map rsum]. assert (0 <= rsum (map Rabs l)) by (apply rsum_nonneg; intros z Hz; apply in_map_iff in Hz as [w [<- _]]; apply Rabs_pos).
  destruct H as [->|H]; [lra|]. pose proof (IH H). pose proof (Rabs_pos y). lra.
Qed.
Theorem C67_crest l : (exists x, In x l /\ x <> 0) -> exists m c, stat_maxabs l = Ok m /\ feat_crest l = Ok c /\
  c = m / rsum (map Rabs l) /\ 1 / INR (length l) <= c <= 1.
Proof.
  intros [x [Hx Nx]]. assert (H : l <> []) by (intros ->; destruct Hx). destruct (stat_maxabs_ok l H) as [m [E I]].
  pose proof (sumabs_ge l x Hx) as G. pose proof (Rabs_pos_lt x Nx) as P. pose proof (len_pos l H).
  exists m, (m / rsum (map Rabs l)). split; auto. split; [|split; auto].
  - unfold feat_crest. rewrite E. cbn [bind]. rewrite (accumulate_plus Rabs), Rplus_0_l. apply rdiv_ok. lra.
  - assert (B : rsum (map Rabs l) <= INR (length l) * m).
    { rewrite <- (map_length Rabs l). apply (rsum_bounds (map Rabs l) 0 m). intros y Hy. split; [apply in_map_iff in Hy as [z [<- _]]; apply Rabs_pos|apply I; auto]. }
    assert (S : m <= rsum (map Rabs l)) by (destruct I as [I _]; apply in_map_iff in I as [z [<- Hz]]; apply sumabs_ge; auto).
    split.
    + apply (Rmult_le_reg_r (rsum (map Rabs l) * INR (length l))); [nra|]. replace (m / rsum (map Rabs l) * (rsum (map Rabs l) * INR (length l))) with (INR (length l) * m) by (field; lra).
      replace (1 / INR (length l) * (rsum (map Rabs l) * INR (length l))) with (rsum (map Rabs l)) by (field; lra). lra.
    + apply (Rmult_le_reg_r (rsum (map Rabs l))); [lra|]. unfold Rdiv. rewrite Rmult_assoc, Rinv_l by lra. lra.
Qed.

(** Entropy of a strictly positive probability mass function. *)
Definition pmf (l : list R) : Prop := all_positive l /\ rsum l = 1.
Lemma entropy_gen (g : R -> R) (op : R -> R -> res R) l : (forall a x, In x l -> op a x = Ok (a + g x)) -> forall a, accumulateM op a l = Ok (a + rsum (map g l)).
Proof.
  induction l as [|x l IH]; intros H a; cbn [accumulateM map rsum]; [f_equal; ring|]. rewrite H by (left; auto). cbn [bind].
  rewrite IH by (intros; apply H; right; auto). f_equal. ring.
Qed.
Lemma ln2_pos : 0 < ln 2. Proof. rewrite <- ln_1. apply ln_increasing; lra. Qed.
Lemma entropy_ok l : pmf l -> (2 <= length l)%nat -> feat_entropy l = Ok (- rsum (map (fun p => p * ln p) l) / ln (INR (length l))).
Proof.
  intros [P S] HL. pose proof ln2_pos. assert (HN : 1 < INR (length l)) by (change 1 with (INR 1); apply lt_INR; lia).
  assert (LN : 0 < ln (INR (length l))) by (rewrite <- ln_1; apply ln_increasing; lra).
  unfold feat_entropy. rewrite (entropy_gen (fun x => / ln 2 * (x * ln x))).
  2:{ intros a x Hx. unfold rlog2. rewrite rlog_ok by (apply P; auto). cbn. f_equal. unfold Rdiv. ring. }
  cbn [bind]. unfold rlog2. rewrite rlog_ok by lra. cbn [rmap bind]. rewrite rdiv_ok.
  - f_equal. rewrite rsum_map_scal. field. split; lra.
  - apply Rmult_integral_contrapositive_currified; [lra|apply Rinv_neq_0_compat; lra].
Qed.
Theorem C67_entropy l : pmf l -> (2 <= length l)%nat -> exists h, feat_entropy l = Ok h /\
  h = - rsum (map (fun p => p * (ln p / ln 2)) l) / (ln (INR (length l)) / ln 2) /\ 0 <= h <= 1.
Proof.
  intros HP HL. pose proof HP as [P S]. eexists. split; [apply entropy_ok; auto|]. pose proof ln2_pos.
  assert (HN : 1 < INR (length l)) by (change 1 with (INR 1); apply lt_INR; lia).
  assert (LN : 0 < ln (INR (length l))) by (rewrite <- ln_1; apply ln_increasing; lra).
  assert (LE1 : forall x, In x l -> x <= 1).
  { intros x Hx. rewrite <- S. replace (rsum l) with (rsum (map Rabs l)); [rewrite <- (Rabs_pos_eq x) at 1 by (left; apply P; auto); apply sumabs_ge; auto|].
    rewrite <- (map_id l) at 2. apply rsum_map_ext. intros y Hy. apply Rabs_pos_eq. left. apply P; auto. }
  split; [|split].
  - rewrite (rsum_map_ext (fun p => p * (ln p / ln 2)) (fun p => / ln 2 * (p * ln p))) by (intros; unfold Rdiv; ring). rewrite rsum_map_scal. field. split; lra.
  - apply Rmult_le_pos; [|left; apply Rinv_0_lt_compat; auto]. assert (0 <= rsum (map (fun p => -1 * (p * ln p)) l)); [|rewrite rsum_map_scal in H0; lra].
    apply rsum_nonneg. intros y Hy. apply in_map_iff in Hy as [x [<- Hx]]. pose proof (P x Hx). pose proof (LE1 x Hx).
    assert (ln x <= 0); [|nra]. destruct (Req_dec x 1) as [->|N]; [rewrite ln_1; lra|]. rewrite <- ln_1. left. apply ln_increasing; lra.
  - apply (Rmult_le_reg_r (ln (INR (length l)))); auto. unfold Rdiv. rewrite Rmult_assoc, Rinv_l by lra. rewrite Rmult_1_r, Rmult_1_l.
    assert (G : rsum (map (fun x => x * - ln (INR (length l)) + (x + - / INR (length l))) l) <= rsum (map (fun p => p * ln p) l)).
    { apply rsum_le. intros x Hx. pose proof (P x Hx).
      pose proof (ln_le_sub1 (/ (INR (length l) * x)) ltac:(apply Rinv_0_lt_compat; nra)) as L. rewrite ln_Rinv, ln_mult in L by nra.
      assert (x * (- (ln (INR (length l)) + ln x)) <= x * (/ (INR (length l) * x) - 1)) by (apply Rmult_le_compat_l; lra).
      replace (x * (/ (INR (length l) * x) - 1)) with (/ INR (length l) - x) in H1 by (field; split; lra). lra. }
    rewrite rsum_map_plus, rsum_map_plus, rsum_map_const in G. rewrite map_id in G. rewrite (rsum_map_ext (fun x => x * - ln (INR (length l))) (fun x => - ln (INR (length l)) * x)) in G by (intros; ring).
    rewrite rsum_map_scal, map_id, S in G. replace (INR (length l) * - / INR (length l)) with (-1) in G by (field; lra). lra.
Qed.
(** The uniform distribution has entropy one. *)
Theorem C67_entropy_uniform n : (2 <= n)%nat -> feat_entropy (repeat (/ INR n) n) = Ok 1.
Proof.
  intros H. assert (HN : 1 < INR n) by (change 1 with (INR 1); apply lt_INR; lia). assert (LN : 0 < ln (INR n)) by (rewrite <- ln_1; apply ln_increasing; lra).
  rewrite entropy_ok.
  - rewrite repeat_length. f_equal. assert (E : map (fun p => p * ln p) (repeat (/ INR n) n) = repeat (/ INR n * ln (/ INR n)) n) by (clear; generalize (/ INR n); intros r; induction n; simpl; f_equal; auto).
    rewrite E, rsum_repeat, ln_Rinv by lra. field. split; lra.
  - split; [intros x Hx; apply repeat_spec in Hx; subst; apply Rinv_0_lt_compat; lra|]. rewrite rsum_repeat. field. lra.
  - rewrite repeat_length; auto.
Qed.
(** The spectral entropy is the entropy of the normalised spectrum. *)
Theorem C67_spectral_entropy l : all_positive l -> (2 <= length l)%nat -> feat_spectral_entropy l = feat_entropy (map (fun x => x / rsum l) l).
Proof.
  intros P HL. assert (S : 0 < rsum l).
  { destruct l as [|x l]; simpl in HL; [lia|]. cbn [rsum]. pose proof (P x (or_introl eq_refl)). assert (0 <= rsum l) by (apply rsum_nonneg; intros y Hy; left; apply P; right; auto). lra. }
  unfold feat_spectral_entropy, feat_entropy. rewrite accumulate_Rplus, Rplus_0_l, map_length. f_equal. set (s := rsum l) in *. clearbody s. clear HL.
  generalize 0. induction l as [|x l IH]; intros a; [reflexivity|]. cbn [accumulateM map]. rewrite rdiv_ok by lra. cbn [bind].
  pose proof (P x (or_introl eq_refl)). unfold rlog2 at 1 3. rewrite rlog_ok by (apply Rdiv_lt_0_compat; auto). cbn [rmap bind]. apply IH. intros y Hy. apply P. right; auto.
Qed.

Lemma rolloff_loop_spec limit l : forall acc, acc <= limit -> let k := rolloff_loop limit acc l in
  (k <= length l)%nat /\
  (forall j, (j < k)%nat -> acc + sumsq (firstn j l) <= limit) /\ ((k < length l)%nat -> limit < acc + sumsq (firstn k l)) /\ (l <> [] -> (0 < k)%nat).
Proof.
  induction l as [|x l IH]; intros acc H; cbn [rolloff_loop]; [simpl; split; [lia|split; [intros; lia|split; [intros; lia|contradiction]]]|].
  destruct (Rle_dec acc limit) as [_|N]; [|contradiction]. cbn zeta.
  destruct (Rle_dec (acc + x * x) limit) as [H'|H'].
  - destruct (IH _ H') as [A [B [C D]]]. set (k := rolloff_loop limit (acc + x * x) l) in *. split; [simpl; lia|]. split; [|split; [|intros; lia]].
    + intros [|j] Hj; [unfold sumsq; simpl; lra|]. pose proof (B j ltac:(lia)). unfold sumsq in *. cbn [firstn map rsum]. lra.
    + intros Hk. simpl in Hk. pose proof (C ltac:(lia)). unfold sumsq in *. cbn [firstn map rsum]. lra.
  - assert (E : rolloff_loop limit (acc + x * x) l = 0%nat) by (destruct l; [reflexivity|]; cbn [rolloff_loop]; destruct (Rle_dec (acc + x * x) limit); [contradiction|reflexivity]).
    rewrite E. split; [simpl; lia|]. split; [|split; [|intros; lia]].
    + intros [|j] Hj; [unfold sumsq; simpl; lra|lia].
    + intros _. unfold sumsq. simpl. lra.
Qed.
(** Roll-off: the first position at which the accumulated energy exceeds the given share of the
    total, divided by the length. *)
Theorem C67_rolloff l pct : 0 <= pct < 1 -> 0 < sumsq l -> exists k, (k < length l)%nat /\
  feat_rolloff l pct = Ok (INR k / INR (length l)) /\ sumsq (firstn k l) <= pct * sumsq l < sumsq (firstn (S k) l).
Proof.
  intros HP HE. assert (H : l <> []) by (intros ->; unfold sumsq in HE; simpl in HE; lra).
  destruct (rolloff_loop_spec (pct * sumsq l) l 0 ltac:(nra)) as [A [B [C D]]]. set (k := rolloff_loop (pct * sumsq l) 0 l) in *. specialize (D H).
  exists (k - 1)%nat. split; [lia|]. split; [|split].
  - unfold feat_rolloff. rewrite energy_ok. cbn [bind]. fold k. rewrite rdiv_ok by (apply len_neq0; auto). rewrite minus_INR by lia. reflexivity.
  - pose proof (B (k - 1)%nat ltac:(lia)). lra.
  - replace (S (k - 1)) with k by lia. destruct (Nat.lt_ge_cases k (length l)) as [L|L]; [pose proof (C L); lra|].
    rewrite firstn_all2 by lia. nra.
Qed.

(** ** C68: durations, level and silence *)
Theorem C68_durations l fs thr : l <> [] -> fs <> 0 -> exists m n, stat_maxabs l = Ok m /\ (n <= length l)%nat /\
  n = length (filter (fun x => if Rlt_dec (thr * m) (Rabs x) then true else false) l) /\
  feat_effective_duration l fs thr = Ok (INR n / fs) /\ feat_duration l fs = Ok (INR (length l) / fs).
Proof.
  intros H Hf. destruct (stat_maxabs_ok l H) as [m [E I]]. set (p := fun x => if Rlt_dec (thr * m) (Rabs x) then true else false).
  assert (C : count_if p l = length (filter p l)) by (clear; induction l as [|x l IH]; [reflexivity|]; cbn [count_if filter]; destruct (p x); simpl; lia).
  assert (FL : (length (filter p l) <= length l)%nat) by (clear; induction l as [|x l IH]; [simpl; lia|]; cbn [filter]; destruct (p x); simpl; lia).
  exists m, (length (filter p l)). split; auto. split; auto. split; auto. split.
  - unfold feat_effective_duration. rewrite E. cbn [bind]. fold p. rewrite C. apply rdiv_ok; auto.
  - apply rdiv_ok; auto.
Qed.
Theorem C68_leq_silence l thr : l <> [] ->
  feat_leq l = (if Req_EM_T (sumsq l) 0 then UB else Ok (10 * (ln (sumsq l / INR (length l)) / ln 10))) /\
  (silence l thr = Ok true <-> sumsq l / INR (length l) < thr) /\ (silence l thr = Ok false <-> thr <= sumsq l / INR (length l)).
Proof.
  intros H. pose proof (len_pos l H). pose proof (sumsq_nonneg l). pose proof (Rinv_0_lt_compat _ H0). split; [|split].
  - unfold feat_leq. rewrite power_ok by auto. cbn [bind]. unfold pow2db, log10. destruct (Req_EM_T (sumsq l) 0) as [E|E], (Rlt_dec 0 (sumsq l / INR (length l))) as [P|P]; auto; exfalso.
    + rewrite E in P. unfold Rdiv in P. lra.
    + apply P. apply Rdiv_lt_0_compat; lra.
  - unfold silence. rewrite power_ok by auto. cbn [bind]. destruct (Rlt_dec _ thr); split; intros; auto; try discriminate. contradiction.
  - unfold silence. rewrite power_ok by auto. cbn [bind]. destruct (Rlt_dec _ thr); split; intros; auto; try discriminate; lra.
Qed.
Theorem C68_loudness l : exists v, feat_loudness l = Ok v /\ 0 <= v /\ (v = 0 <-> (forall x, In x l -> x = 0)).
Proof.
  unfold feat_loudness. rewrite energy_ok. cbn [bind]. pose proof (sumsq_nonneg l). unfold rpow. destruct (Rlt_dec 0 (sumsq l)) as [P|P].
  - eexists. split; [reflexivity|]. assert (Q : 0 < Rpower (sumsq l) (67 / 100)) by (unfold Rpower; apply exp_pos). split; [lra|]. split; [lra|]. intros Z. apply sumsq_zero in Z. lra.
  - assert (Z : sumsq l = 0) by lra. exists 0. rewrite Z. split.
    + destruct (Req_EM_T (IZR (Int_part (67 / 100))) (67 / 100)) as [E|_].
      * exfalso. assert (0 < IZR (Int_part (67 / 100)) < 1) by lra. destruct H0. apply lt_IZR in H0, H1. lia.
      * destruct (Req_EM_T 0 0); [|lra]. destruct (Rlt_dec 0 (67 / 100)); [reflexivity|lra].
    + split; [lra|]. split; auto. intros _. apply sumsq_zero; auto.
Qed.

(** ** C69: signal to noise ratio *)
(** When the two signals are adjacent in memory the result is the documented one. *)
Theorem C69_snr_adjacent_partial mem n : (0 < n)%nat -> (length mem = n + n)%nat ->
  let a := slice mem 0 n in let noise := map (fun i => nth i mem 0 - nth (n + i) mem 0) (seq 0 n) in
  ~ is_constant a -> ~ is_constant noise -> feat_snr mem 0 n n = Ok (10 * (ln (central 2 a / central 2 noise) / ln 10)).
Proof.
  intros Hn H a noise Ha Hb. unfold feat_snr. change (0 + n)%nat with n.
  assert (M0 : mrange mem 0 n = Ok a) by (apply (mrange_slice mem 0 n); unfold in_range; lia).
  rewrite M0, (mrange_slice mem n n) by (unfold in_range; lia). cbn [bind].
  assert (Ez : zip_sub a (slice mem n n) = noise).
  { assert (L1 : length (firstn n mem) = n) by (rewrite firstn_length; lia). assert (L2 : length (skipn n mem) = n) by (rewrite skipn_length; lia).
    unfold noise, a, slice. clear - L1 L2. cbn [skipn]. rewrite (firstn_all2 (skipn n mem)) by lia. pose proof (firstn_skipn n mem) as E. revert E L1 L2. generalize (firstn n mem) (skipn n mem).
    intros a b <- La Lb. rewrite (map_ext_in _ (fun i => nth i a 0 - nth i b 0)).
    2: { intros i I. apply in_seq in I. rewrite app_nth1 by lia. rewrite app_nth2 by lia. do 2 f_equal. lia. }
    revert n b La Lb. induction a as [|x a IH]; intros [|n] [|y b] La Lb; try discriminate; [reflexivity|]. cbn [zip_sub seq map nth]. f_equal. rewrite <- seq_shift, map_map. apply (IH n b); auto. }
  rewrite Ez.
  assert (La : length a = n) by (apply slice_length; unfold in_range; lia). assert (Lb : length (slice mem n n) = n) by (apply slice_length; unfold in_range; lia).
  assert (Na : a <> []) by (intros E; rewrite E in La; simpl in La; lia).
  assert (Nb : noise <> []) by (intros E; assert (length noise = n) by (unfold noise; rewrite map_length, seq_length; reflexivity); rewrite E in H0; simpl in H0; lia).
  unfold stat_variance. rewrite !stat_moment_ok by (auto; lia). cbn [bind]. pose proof (central2_pos a Na Ha). pose proof (central2_pos noise Nb Hb).
  rewrite rdiv_ok by lra. cbn [bind]. unfold pow2db. destruct (Rlt_dec 0 (central 2 a / central 2 noise)) as [P|P]; [reflexivity|]. exfalso. apply P. apply Rdiv_lt_0_compat; auto.
Qed.
(** In any other layout the reference is not the first signal: if the second signal lies before the
    first, the memory range does not exist. *)
Theorem C69_snr_refuted mem first1 n first2 : in_range mem first1 n -> (first2 < first1)%nat -> feat_snr mem first1 n first2 = UB.
Proof.
  intros H1 H. unfold feat_snr. rewrite (mrange_slice mem first1 n), (mrange_slice mem first2 n) by (unfold in_range in *; lia). cbn [bind].
  unfold mrange. destruct (Nat.leb_spec first1 first2); [lia|reflexivity].
Qed.

(** ** C70: peak-to-peak and crest factor *)
(** Documented as maximum minus minimum; the code subtracts magnitudes, which agrees exactly when no
    sample is negative. *)
Theorem C70_peak2peak_actual l : l <> [] -> exists mx mn, stat_max l = Ok mx /\ stat_min l = Ok mn /\ peak2peak l = Ok (Rabs mx - Rabs mn) /\
  (Rabs mx - Rabs mn = mx - mn <-> (mx = mn \/ 0 <= mn)).
Proof.
  intros H. destruct (stat_max_ok l H) as [mx [E1 I1]]. destruct (stat_min_ok l H) as [mn [E2 I2]]. exists mx, mn. split; auto. split; auto.
  unfold peak2peak. rewrite E1, E2. split; [reflexivity|]. assert (mn <= mx) by (apply I2, I1). unfold Rabs. destruct (Rcase_abs mx), (Rcase_abs mn); split; intros; lra.
Qed.
Theorem C70_peak2peak_refuted : exists l mx mn, l <> [] /\ stat_max l = Ok mx /\ stat_min l = Ok mn /\ peak2peak l <> Ok (mx - mn).
Proof.
  destruct (C70_peak2peak_actual [-1; 1] ltac:(discriminate)) as [mx [mn [E1 [E2 [E3 E4]]]]]. exists [-1; 1], mx, mn. split; [discriminate|]. split; auto. split; auto.
  rewrite E3. intros E. injection E as E. apply E4 in E.
  destruct (stat_max_ok [-1; 1] ltac:(discriminate)) as [a [A1 [_ A2]]]. destruct (stat_min_ok [-1; 1] ltac:(discriminate)) as [b [B1 [_ B2]]].
  rewrite E1 in A1. rewrite E2 in B1. injection A1 as <-. injection B1 as <-. pose proof (A2 1 ltac:(simpl; auto)). pose proof (B2 (-1) ltac:(simpl; auto)). lra.
Qed.
(** peak2rms divides the largest magnitude by the (wrong) rms of C36. *)
Theorem C70_peak2rms_actual l : l <> [] -> exists m, is_max (map Rabs l) m /\
  peak2rms l = Ok (m / sqrt ((1 + sumsq l) / INR (length l))).
Proof.
  intros H. destruct (stat_max_ok l H) as [mx [E1 I1]]. destruct (stat_min_ok l H) as [mn [E2 I2]]. exists (Rmax (Rabs mn) (Rabs mx)). split.
  - split.
    + unfold Rmax. destruct (Rle_dec (Rabs mn) (Rabs mx)); apply in_map; [apply I1|apply I2].
    + intros y Hy. apply in_map_iff in Hy as [x [<- Hx]]. pose proof (proj2 I1 x Hx). pose proof (proj2 I2 x Hx).
      unfold Rmax. destruct (Rle_dec (Rabs mn) (Rabs mx)) as [L|L]; revert L; unfold Rabs; destruct (Rcase_abs x), (Rcase_abs mn), (Rcase_abs mx); lra.
  - unfold peak2rms. rewrite E1, E2. cbn [bind]. rewrite rms_actual by auto. cbn [bind]. apply rdiv_ok.
    pose proof (sumsq_nonneg l). pose proof (len_pos l H). assert (0 < sqrt ((1 + sumsq l) / INR (length l))); [|lra]. apply sqrt_lt_R0. apply Rdiv_lt_0_compat; lra.
Qed.
(** So a constant signal of magnitude one does not have ratio one. *)
Theorem C70_peak2rms_refuted : peak2rms [1] <> Ok 1.
Proof.
  destruct (C70_peak2rms_actual [1] ltac:(discriminate)) as [m [[I _] E]]. rewrite E. destruct I as [<-|[]]. rewrite Rabs_R1. intros Q. injection Q as Q.
  unfold sumsq in Q. simpl in Q. replace ((1 + (1 * 1 + 0)) / 1) with 2 in Q by field.
  assert (0 < sqrt 2) by (apply sqrt_lt_R0; lra). assert (sqrt 2 * sqrt 2 = 2) by (apply sqrt_sqrt; lra).
  assert (sqrt 2 = 1) by (apply (Rmult_eq_reg_r (/ sqrt 2)); [rewrite Rinv_r by lra; unfold Rdiv in Q; lra|apply Rinv_neq_0_compat; lra]). rewrite H1 in H0. lra.
Qed.

(** ** Concrete cases *)
Example feat_distribution : distribution [0; 1; 2] /\ pmf [/2; /4; /4].
Proof.
  split; split.
  - intros x [<-|[<-|[<-|[]]]]; lra.
  - simpl. lra.
  - intros x [<-|[<-|[<-|[]]]]; lra.
  - simpl. lra.
Qed.
Example feat_crossings : sign_changes [1; -1; 0] 2.
Proof.
  left. split; [unfold sign_change; lra|]. exists 1%nat. split; auto. left. split; [unfold sign_change; lra|]. exists 0%nat. split; reflexivity.
Qed.
Example feat_snr_case : (0 < 2)%nat /\ ~ is_constant [1; 2] /\ ~ is_constant (map (fun i => nth i [1; 2; 1; 1] 0 - nth (2 + i) [1; 2; 1; 1] 0) (seq 0 2)).
Proof.
  split; [lia|]. split; intros H.
  - assert (1 = 2) by (apply H; simpl; auto). lra.
  - assert (1 - 1 = 2 - 1) by (apply H; simpl; auto). lra.
Qed.

Print Assumptions C25_normalize.
Print Assumptions C25_normalize_zero.
Print Assumptions C36_energy_power_rssq.
Print Assumptions C36_rms_actual.
Print Assumptions C36_rms_refuted.
Print Assumptions C36_normalize_rms_actual.
Print Assumptions C37_azcr.
Print Assumptions C37_azcr_positive_scale.
Print Assumptions C37_azcr_negative_scale.
Print Assumptions C37_azcr_inversion_refuted.
Print Assumptions C38_amdf_asdf.
Print Assumptions C38_empty.
Print Assumptions C39_slope_actual.
Print Assumptions C39_slope_refuted.
Print Assumptions C40_flux_actual.
Print Assumptions C40_flux_refuted.
Print Assumptions C40_flux_order_refuted.
Print Assumptions C40_variation_actual.
Print Assumptions C40_variation_short.
Print Assumptions C40_variation_refuted.
Print Assumptions C40_decrease_refuted.
Print Assumptions C40_irregularity_actual.
Print Assumptions C40_irregularity_refuted.
Print Assumptions C41_centroid_spread.
Print Assumptions C41_index_centres.
Print Assumptions C67_crest.
Print Assumptions C67_entropy.
Print Assumptions C67_entropy_uniform.
Print Assumptions C67_spectral_entropy.
Print Assumptions C67_rolloff.
Print Assumptions C68_durations.
Print Assumptions C68_leq_silence.
Print Assumptions C68_loudness.
Print Assumptions C69_snr_adjacent_partial.
Print Assumptions C69_snr_refuted.
Print Assumptions C70_peak2peak_actual.
Print Assumptions C70_peak2peak_refuted.
Print Assumptions C70_peak2rms_actual.
Print Assumptions C70_peak2rms_refuted.
