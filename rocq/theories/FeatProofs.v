From Verif Require Import BaseProofs RealBase RealBaseProofs AlgModel AlgSpec AlgProofs StatModel StatSpec StatProofs FeatModel.
Local Open Scope R_scope.

Lemma mrange_slice mem a n : in_range mem a n -> mrange mem a (a + n) = Ok (slice mem a n).
Proof.
  unfold in_range, mrange, slice. intros H. destruct (Nat.leb_spec a (a + n)), (Nat.leb_spec (a + n) (length mem)); cbn [andb]; try lia.
  replace (a + n - a)%nat with n by lia. reflexivity.
Qed.
Lemma slice_nil_iff (mem : list R) a n : in_range mem a n -> (0 < n)%nat -> slice mem a n <> [].
Proof. intros H Hn E. pose proof (slice_length mem a n H). rewrite E in H0. simpl in H0. lia. Qed.

Lemma inner_self l : forall a, inner_product l l a = Ok (a + sumsq l).
Proof.
  induction l as [|x l IH]; intros a; cbn [inner_product]; [unfold sumsq; simpl; f_equal; ring|]. rewrite IH. f_equal. unfold sumsq. cbn [map rsum]. ring.
Qed.
Lemma sumsq_nonneg l : 0 <= sumsq l.
Proof. apply rsum_nonneg. intros x Hx. apply in_map_iff in Hx as [y [<- _]]. apply Rle_0_sqr. Qed.
Lemma sumsq_zero l : sumsq l = 0 <-> (forall x, In x l -> x = 0).
Proof.
  split.
  - intros E x Hx. assert (x * x = 0); [|nra]. apply (sum_zero_each (map (fun x => x * x) l)); auto; [intros y Hy; apply in_map_iff in Hy as [z [<- _]]; apply Rle_0_sqr|].
    apply (in_map (fun x => x * x)). auto.
  - intros Z. unfold sumsq. rewrite (rsum_map_ext _ (fun _ => 0)); [rewrite rsum_map_const; ring|]. intros x Hx. rewrite (Z x Hx). ring.
Qed.
Lemma energy_ok l : feat_energy l = Ok (sumsq l).
Proof. unfold feat_energy. rewrite inner_self. f_equal. ring. Qed.
Lemma power_ok l : l <> [] -> feat_power l = Ok (sumsq l / INR (length l)).
Proof. intros H. unfold feat_power. rewrite energy_ok. cbn [bind]. apply rdiv_ok, len_neq0; auto. Qed.
Lemma rms_actual l : l <> [] -> feat_rms l = Ok (sqrt ((1 + sumsq l) / INR (length l))).
Proof.
  intros H. unfold feat_rms. rewrite inner_self. cbn [bind]. rewrite rdiv_ok by (apply len_neq0; auto). cbn [bind]. apply rsqrt_ok.
  pose proof (sumsq_nonneg l). pose proof (len_pos l H). apply Rmult_le_pos; [lra|left; apply Rinv_0_lt_compat; auto].
Qed.
Lemma rssq_ok l : feat_rssq l = Ok (sqrt (sumsq l)).
Proof. unfold feat_rssq. rewrite inner_self. cbn [bind]. rewrite Rplus_0_l. apply rsqrt_ok, sumsq_nonneg. Qed.

(** ** Zero crossings *)
Definition neg (x : R) : bool := if Rlt_dec x 0 then true else false.
Lemma nsign_neg x y : nsign x = nsign y <-> neg x = neg y.
Proof. unfold nsign, neg. destruct (Rlt_dec x 0), (Rlt_dec y 0); split; intros; auto; try discriminate; lra. Qed.
Fixpoint cross_count (prev : R) (l : list R) : nat :=
  match l with [] => O | x :: t => ((if Bool.eqb (neg x) (neg prev) then 0 else 1) + cross_count x t)%nat end.
Lemma azcr_loop_count l : forall p acc, azcr_loop p l acc = acc + INR (cross_count p l).
Proof.
  induction l as [|x l IH]; intros p acc; cbn [azcr_loop cross_count]; [simpl; ring|]. rewrite IH, plus_INR.
  destruct (Req_EM_T (nsign x) (nsign p)) as [E|E]; destruct (Bool.eqb (neg x) (neg p)) eqn:B.
  - simpl. ring.
  - exfalso. apply nsign_neg in E. rewrite E, Bool.eqb_reflx in B. discriminate.
  - exfalso. apply E, nsign_neg. apply Bool.eqb_prop; auto.
  - simpl. ring.
Qed.
Lemma cross_count_le l : forall p, (cross_count p l <= length l)%nat.
Proof. induction l as [|x l IH]; intros p; cbn [cross_count length]; [lia|]. pose proof (IH x). destruct (Bool.eqb _ _); lia. Qed.
Lemma cross_count_sum l : forall p, INR (cross_count p l) =
  sumf (fun i => if Bool.eqb (neg (nth i (p :: l) 0)) (neg (nth (S i) (p :: l) 0)) then 0 else 1) (length l).
Proof.
  induction l as [|x l IH]; intros p; [reflexivity|]. cbn [length]. rewrite sumf_S_l. cbn [cross_count]. rewrite plus_INR, IH.
  f_equal. cbn [nth]. destruct (neg x), (neg p); reflexivity.
Qed.

(** ** Difference functions *)
Lemma df_inner_ok d a i k : forall j acc, (j + k + i <= length a)%nat ->
  df_inner d a i j k acc = Ok (acc + sumf (fun t => d (nth (j + t) a 0) (nth (j + t + i) a 0)) k).
Proof.
  induction k as [|k IH]; intros j acc H; cbn [df_inner]; [simpl; f_equal; ring|].
  destruct (load_ok a j ltac:(lia)) as [x [E1 N1]]. destruct (load_ok a (j + i) ltac:(lia)) as [y [E2 N2]]. rewrite E1, E2. cbn [bind].
  rewrite IH by lia. f_equal. rewrite sumf_S_l, Nat.add_0_r. rewrite (nth_error_nth _ _ 0 N1), (nth_error_nth _ _ 0 N2). rewrite Rplus_assoc. f_equal. f_equal.
  apply sumf_ext. intros t _. f_equal; f_equal; lia.
Qed.
Lemma df_outer_ok d a k : a <> [] -> forall i, (i + k <= length a)%nat ->
  df_outer d a i k = Ok (map (fun i => sumf (fun t => d (nth t a 0) (nth (t + i) a 0)) (length a - i) / INR (length a)) (seq i k)).
Proof.
  intros Ha. induction k as [|k IH]; intros i H; cbn [df_outer seq map]; auto.
  rewrite df_inner_ok by lia. cbn [bind]. rewrite rdiv_ok by (apply len_neq0; auto). cbn [bind]. rewrite IH by lia. cbn. rewrite Rplus_0_l. reflexivity.
Qed.

(** ** Centroids *)
Lemma wcentroid_ok a : forall b ws us, (length a <= length b)%nat ->
  wcentroid_loop a b ws us = Ok (ws + rsum2 (fun x y => y * x) a b, us + rsum a).
Proof.
  induction a as [|x a IH]; intros b ws us H; cbn [wcentroid_loop rsum2 rsum]; [f_equal; f_equal; destruct b; ring|].
  destruct b as [|y b]; simpl in H; [lia|]. rewrite IH by lia. f_equal. cbn [rsum2]. f_equal; ring.
Qed.
Lemma wspread_ok c a : forall b ws us, (length a <= length b)%nat ->
  wspread_loop c a b ws us = Ok (ws + rsum2 (fun x y => (y - c) * (y - c) * x) a b, us + rsum a).
Proof.
  induction a as [|x a IH]; intros b ws us H; cbn [wspread_loop rsum2 rsum]; [f_equal; f_equal; destruct b; ring|].
  destruct b as [|y b]; simpl in H; [lia|]. rewrite IH by lia. f_equal. cbn [rsum2]. f_equal; ring.
Qed.
Definition indices (n : nat) : list R := map INR (seq 0 n).
Lemma centroid_loop_ok l : forall k ws us,
  centroid_loop (INR k) l ws us = (ws + rsum2 (fun x y => y * x) l (map INR (seq k (length l))), us + rsum l).
Proof.
  induction l as [|x l IH]; intros k ws us; cbn [centroid_loop rsum2 rsum length seq map]; [f_equal; ring|].
  replace (INR k + 1) with (INR (S k)) by (rewrite S_INR; ring). rewrite IH. f_equal; ring.
Qed.
Lemma spread_loop_ok c l : forall k ws us,
  spread_loop c (INR k) l ws us = (ws + rsum2 (fun x y => (y - c) * (y - c) * x) l (map INR (seq k (length l))), us + rsum l).
Proof.
  induction l as [|x l IH]; intros k ws us; cbn [spread_loop rsum2 rsum length seq map]; [f_equal; ring|].
  replace (INR k + 1) with (INR (S k)) by (rewrite S_INR; ring). rewrite IH. f_equal; ring.
Qed.
Lemma indices_length n : length (indices n) = n.
Proof. unfold indices. rewrite map_length, seq_length. reflexivity. Qed.
Lemma centroid_weighted l : feat_centroid l = feat_weighted_centroid l (indices (length l)).
Proof.
  unfold feat_centroid, feat_weighted_centroid. rewrite wcentroid_ok by (rewrite indices_length; lia). pose proof (centroid_loop_ok l 0 0 0) as E. change (INR 0) with 0 in E. rewrite E. reflexivity.
Qed.
Lemma spread_weighted l : feat_spread l = feat_weighted_spread l (indices (length l)).
Proof.
  unfold feat_spread, feat_weighted_spread. rewrite <- centroid_weighted. destruct (feat_centroid l); cbn [bind]; auto.
  rewrite wspread_ok by (rewrite indices_length; lia). cbn [bind]. pose proof (spread_loop_ok a l 0 0 0) as E. change (INR 0) with 0 in E. rewrite E. reflexivity.
Qed.

Lemma rsum2_bounds (f : R -> R -> R) lo hi a : forall b, (length a <= length b)%nat ->
  (forall i x y, nth_error a i = Some x -> nth_error b i = Some y -> lo * x <= f x y <= hi * x) ->
  lo * rsum a <= rsum2 f a b <= hi * rsum a.
Proof.
  induction a as [|x a IH]; intros b H HB; cbn [rsum rsum2]; [destruct b; lra|].
  destruct b as [|y b]; simpl in H; [lia|]. pose proof (HB 0%nat x y eq_refl eq_refl).
  assert (lo * rsum a <= rsum2 f a b <= hi * rsum a) by (apply IH; [lia|]; intros i; apply (HB (S i))). lra.
Qed.
Lemma rsum2_scal (f g : R -> R -> R) k c a : (forall x y, f (k * x) y = c * g x y) -> forall b, rsum2 f (map (Rmult k) a) b = c * rsum2 g a b.
Proof.
  intros H. induction a as [|x a IH]; intros b; cbn [map rsum2]; [ring|]. destruct b; [ring|]. rewrite H, IH. ring.
Qed.
Lemma rsum2_nonneg (f : R -> R -> R) a : forall b, (forall i x y, nth_error a i = Some x -> nth_error b i = Some y -> 0 <= f x y) -> 0 <= rsum2 f a b.
Proof.
  induction a as [|x a IH]; intros b HB; cbn [rsum2]; [destruct b; lra|]. destruct b as [|y b]; [lra|].
  pose proof (HB 0%nat x y eq_refl eq_refl). assert (0 <= rsum2 f a b) by (apply IH; intros i; apply (HB (S i))). lra.
Qed.
Lemma rsum2_zero (f : R -> R -> R) a : forall b, (forall i x y, nth_error a i = Some x -> nth_error b i = Some y -> 0 <= f x y) ->
  (rsum2 f a b = 0 <-> (forall i x y, nth_error a i = Some x -> nth_error b i = Some y -> f x y = 0)).
Proof.
  induction a as [|x a IH]; intros b HB.
  - split; [intros _ [|i]; discriminate|]. intros _. destruct b; reflexivity.
  - destruct b as [|y b]; [split; [intros _ i; destruct i; discriminate|reflexivity]|]. cbn [rsum2].
    pose proof (HB 0%nat x y eq_refl eq_refl) as H0. assert (HB' : forall i x y, nth_error a i = Some x -> nth_error b i = Some y -> 0 <= f x y) by (intros i; apply (HB (S i))).
    pose proof (rsum2_nonneg f a b HB') as H1. split.
    + intros E. assert (E1 : f x y = 0) by lra. assert (E2 : rsum2 f a b = 0) by lra.
      intros [|i] u v Hu Hv; simpl in Hu, Hv; [congruence|]. eapply (proj1 (IH b HB')); eauto.
    + intros Z. rewrite (Z 0%nat x y eq_refl eq_refl). assert (E2 : rsum2 f a b = 0) by (apply (proj2 (IH b HB')); intros i; apply (Z (S i))). lra.
Qed.
Lemma rsum_scal k l : rsum (map (Rmult k) l) = k * rsum l.
Proof. induction l as [|x l IH]; simpl; [ring|]. rewrite IH. ring. Qed.

(** ** Loops over two ranges *)
Lemma ok4 (a a' b b' c c' d d' : R) : a = a' -> b = b' -> c = c' -> d = d' -> Ok (a, b, c, d) = Ok (a', b', c', d').
Proof. intros -> -> -> ->. reflexivity. Qed.
Lemma ok3 (a a' b b' c c' : R) : a = a' -> b = b' -> c = c' -> Ok (a, b, c) = Ok (a', b', c').
Proof. intros -> -> ->. reflexivity. Qed.
Lemma slope_loop_ok a : forall b m f mf ff, length a = length b ->
  slope_loop a b m f mf ff = Ok (m + rsum a, f + rsum b, mf + rsum2 (fun x y => x * y) a b, ff + sumsq b).
Proof.
  induction a as [|x a IH]; intros [|y b] m f mf ff H; try discriminate; cbn [slope_loop].
  - unfold sumsq. simpl. apply ok4; ring.
  - simpl in H. rewrite IH by lia. unfold sumsq. cbn [map rsum rsum2]. apply ok4; ring.
Qed.
Lemma variation_loop_ok a : forall b s1 s2 s12, length a = length b ->
  variation_loop a b s1 s2 s12 = Ok (s1 + rsum a, s2 + rsum b, s12 + rsum2 (fun x y => x * y) a b).
Proof.
  induction a as [|x a IH]; intros [|y b] s1 s2 s12 H; try discriminate; cbn [variation_loop].
  - simpl. apply ok3; ring.
  - simpl in H. rewrite IH by lia. cbn [rsum rsum2]. apply ok3; ring.
Qed.
Lemma flux_loop_ok d cs ps (g : R -> R -> R) a : cs <> 0 -> ps <> 0 -> forall b acc, (length a <= length b)%nat ->
  (forall i x y, nth_error a i = Some x -> nth_error b i = Some y -> ndistance d (x / cs) (y / ps) = Ok (g x y)) ->
  flux_loop d cs ps a b acc = Ok (acc + rsum2 g a b).
Proof.
  intros H1 H2. induction a as [|x a IH]; intros b acc HL HD; cbn [flux_loop rsum2]; [f_equal; destruct b; ring|].
  destruct b as [|y b]; simpl in HL; [lia|]. rewrite !rdiv_ok by auto. cbn [bind]. rewrite (HD 0%nat x y eq_refl eq_refl). cbn [bind].
  rewrite IH; [f_equal; ring|lia|]. intros i. apply (HD (S i)).
Qed.
Lemma irregularity_loop_ok l : forall sd sa, l <> [] ->
  irregularity_loop l sd sa = (sd + INR (length l - 1), sa + sumsq (removelast l)).
Proof.
  induction l as [|x l IH]; intros sd sa H; [contradiction|]. destruct l as [|y l].
  - simpl. unfold sumsq. simpl. f_equal; ring.
  - change (irregularity_loop (x :: y :: l) sd sa) with (irregularity_loop (y :: l) (sd + ((x + 1) - x) * ((x + 1) - x)) (sa + x * x)).
    rewrite IH by discriminate. change (removelast (x :: y :: l)) with (x :: removelast (y :: l)). unfold sumsq. cbn [map rsum].
    f_equal; [|ring]. replace (length (x :: y :: l) - 1)%nat with (S (length (y :: l) - 1)) by (simpl; lia). rewrite S_INR. ring.
Qed.
Lemma zip_sub_length a : forall b, length a = length b -> length (zip_sub a b) = length a.
Proof. induction a as [|x a IH]; intros [|y b] H; try discriminate; simpl in *; auto. Qed.
