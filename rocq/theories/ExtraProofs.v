(** Frequency responses and continuous levels. *)
From Verif Require Import BaseProofs RealBase RealBaseProofs SignalSpec MovingModel MovingSpec MovingProofs FeatModel ExtraModel ExtraSpec Cplx CplxProofs.
Local Open Scope R_scope.
Local Open Scope res_scope.

(** ** freq *)
Lemma freq_terms_ok k K : forall cs m acc,
  freq_terms k K m acc cs = (acc + csumf (fun i => RtoC (nth i cs 0) * Cexp (- (INR (m + i) * PI * INR k / K))) (length cs))%C.
Proof.
  induction cs as [|c t IH]; intros m acc; cbn [freq_terms length].
  - cbn [csumf]. apply C_eq; cbn; ring.
  - rewrite IH. rewrite csumf_S_l. cbn [nth]. rewrite Nat.add_0_r.
    rewrite (csumf_ext (fun i => RtoC (nth i t 0) * Cexp (- (INR (S m + i) * PI * INR k / K)))%C (fun i => RtoC (nth i t 0) * Cexp (- (INR (m + S i) * PI * INR k / K)))%C).
    2:{ intros i _. replace (S m + i)%nat with (m + S i)%nat by lia. reflexivity. }
    set (s := csumf _ _). clearbody s. apply C_eq; unfold Cadd, Cscal, Csub, Cmul, Cexp, RtoC, Ci, Re, Im; cbn [fst snd]; rewrite cos_neg, sin_neg; ring.
Qed.
Lemma freq_poly_ok k n cs : (0 < n)%nat -> cs <> [] -> freq_poly k (INR n) cs = Ok (polynomial cs (Cexp (- (PI * INR k / INR n)))).
Proof.
  intros Hn H. destruct cs as [|c t]; [congruence|]. unfold freq_poly. f_equal. rewrite freq_terms_ok. unfold polynomial. cbn [length]. rewrite csumf_S_l. cbn [nth Cpow].
  assert (N : INR n <> 0) by (apply INR_neq0; auto).
  rewrite (csumf_ext (fun i => RtoC (nth (S i) (c :: t) 0) * Cpow (Cexp (- (PI * INR k / INR n))) (S i))%C (fun i => RtoC (nth i t 0) * Cexp (- (INR (1 + i) * PI * INR k / INR n)))%C).
  - set (s := csumf _ _). clearbody s. apply C_eq; cbn; ring.
  - intros i _. rewrite Cexp_pow. cbn [nth]. f_equal. f_equal. change (1 + i)%nat with (S i). field. auto.
Qed.
Lemma cdiv_ok a b : b <> C0 -> cdiv a b = Ok (a / b)%C.
Proof. intros H. unfold cdiv. destruct (Req_EM_T _ _) as [E|]; auto. destruct H. apply Cnorm2_0; auto. Qed.
Lemma cdiv_zero a : cdiv a C0 = NonFinite.
Proof. unfold cdiv. destruct (Req_EM_T _ _) as [E|E]; auto. destruct E. unfold Cnorm2, C0; cbn. ring. Qed.

Lemma overwritten_cons {A} (mem : list A) d v t : (d < length mem)%nat ->
  exists m, store mem d v = Ok m /\ length m = length mem /\ overwritten m (S d) t = overwritten mem d (v :: t).
Proof.
  revert mem. induction d as [|d IH]; intros mem H; destruct mem as [|x mem]; cbn [length] in H; try lia.
  - eexists. split; [reflexivity|]. split; reflexivity.
  - destruct (IH mem ltac:(lia)) as [m [E [L Q]]]. exists (x :: m). cbn [store]. rewrite E. unfold rmap; cbn [bind]. split; auto. split; [cbn [length]; lia|].
    unfold overwritten in *. cbn [firstn app length Nat.add skipn] in *. f_equal. exact Q.
Qed.

Lemma freq_loop_ok b a n : (0 < n)%nat -> b <> [] -> a <> [] -> forall c k mem d,
  (d + c <= length mem)%nat -> (forall i, (k <= i < k + c)%nat -> polynomial a (Cexp (- (PI * INR i / INR n))) <> C0) ->
  freq_loop b a (INR n) c k mem d = Ok (overwritten mem d (map (fun i => transfer b a (PI * INR i / INR n)) (seq k c))).
Proof.
  intros Hn Hb Ha. induction c as [|c IH]; intros k mem d Hd Hz.
  - cbn [freq_loop seq map]. unfold overwritten. cbn [app length]. rewrite Nat.add_0_r, firstn_skipn. reflexivity.
  - cbn [freq_loop seq map]. rewrite !freq_poly_ok by auto. cbn [bind]. rewrite cdiv_ok by (apply Hz; lia). cbn [bind].
    destruct (overwritten_cons mem d (transfer b a (PI * INR k / INR n)) (map (fun i => transfer b a (PI * INR i / INR n)) (seq (S k) c)) ltac:(lia)) as [m [E [L Q]]].
    fold (transfer b a (PI * INR k / INR n)). rewrite E. cbn [bind]. rewrite IH; [rewrite Q; reflexivity|lia|intros; apply Hz; lia].
Qed.
Lemma freq_loop_zero b a n : (0 < n)%nat -> b <> [] -> a <> [] -> forall c k mem d,
  (d + c <= length mem)%nat -> (exists i, (k <= i < k + c)%nat /\ polynomial a (Cexp (- (PI * INR i / INR n))) = C0) ->
  freq_loop b a (INR n) c k mem d = NonFinite.
Proof.
  intros Hn Hb Ha. induction c as [|c IH]; intros k mem d Hd [i [Hi Z]]; [lia|].
  cbn [freq_loop]. rewrite !freq_poly_ok by auto. cbn [bind].
  destruct (C_dec (polynomial a (Cexp (- (PI * INR k / INR n)))) C0) as [E|E].
  - rewrite E, cdiv_zero. reflexivity.
  - rewrite cdiv_ok by auto. cbn [bind]. 
    destruct (overwritten_cons mem d (polynomial b (Cexp (- (PI * INR k / INR n))) / polynomial a (Cexp (- (PI * INR k / INR n))))%C [] ltac:(lia)) as [m [E' [L _]]].
    rewrite E'. cbn [bind]. apply IH; [lia|]. exists i. split; auto. assert (i <> k) by (intros ->; auto). lia.
Qed.
Lemma freq_loop_not_ok b a K : forall c k mem d, (length mem < d + c)%nat -> (0 < c)%nat -> forall m, freq_loop b a K c k mem d <> Ok m.
Proof.
  induction c as [|c IH]; intros k mem d H Hc m; [lia|]. cbn [freq_loop].
  destruct (freq_poly k K b); cbn [bind]; try discriminate. destruct (freq_poly k K a); cbn [bind]; try discriminate. destruct (cdiv _ _) as [v| |]; cbn [bind]; try discriminate.
  destruct (Nat.lt_ge_cases d (length mem)) as [L|L].
  - destruct (overwritten_cons mem d v [] L) as [m' [E [L' _]]]. rewrite E. cbn [bind]. apply IH; lia.
  - rewrite store_ub by lia. discriminate.
Qed.

(** ** The steady state *)
Lemma Re_mul_scal c z : Re (RtoC c * z)%C = c * Re z.
Proof. unfold Cmul, RtoC, Re, Im; cbn [fst snd]. ring. Qed.
Lemma steady_sum (c : list R) (h : C) w (n : Z) :
  sumf (fun m => nth m c 0 * Re (h * Cexp (w * IZR (n - Z.of_nat m)))%C) (length c) = Re (h * Cexp (w * IZR n) * polynomial c (Cexp (- w)))%C.
Proof.
  unfold polynomial. rewrite <- csumf_scal, Re_csumf. apply sumf_ext. intros m _.
  rewrite Cexp_pow. replace (h * Cexp (w * IZR n) * (RtoC (nth m c 0) * Cexp (INR m * - w)))%C with (RtoC (nth m c 0) * (h * (Cexp (w * IZR n) * Cexp (INR m * - w))))%C.
  2:{ pose proof C_ring_theory as T. destruct T. apply C_eq; unfold Cmul, Re, Im, RtoC; cbn [fst snd]; ring. }
  rewrite Re_mul_scal, <- Cexp_add. f_equal. f_equal. f_equal. f_equal. rewrite minus_IZR, <- INR_IZR_INZ. ring.
Qed.
Lemma steady_state b a w : polynomial a (Cexp (- w)) <> C0 ->
  difference_equation b a (fun n => cos (w * IZR n)) (fun n => Re (transfer b a w * Cexp (w * IZR n))%C).
Proof.
  intros Hz n. rewrite steady_sum. 
  rewrite (sumf_ext (fun m => nth m b 0 * cos (w * IZR (n - Z.of_nat m))) (fun m => nth m b 0 * Re (C1 * Cexp (w * IZR (n - Z.of_nat m)))%C)).
  2:{ intros m _. f_equal. unfold Cmul, C1, Cexp, Re, Im; cbn [fst snd]. ring. }
  rewrite steady_sum. f_equal. unfold transfer. destruct C_field_theory as [[] F1 F2 F3]. 
  set (A := polynomial a _) in *. set (B := polynomial b _). clearbody A B. set (e := Cexp _). clearbody e.
  rewrite F2.
  transitivity (B * e * (Cinv A * A))%C; [apply C_eq; unfold Cmul, Re, Im; cbn [fst snd]; ring|]. rewrite F3 by auto. apply C_eq; unfold Cmul, C1, Re, Im; cbn [fst snd]; ring.
Qed.
(** Magnitude and phase form. *)
Lemma steady_polar h w (n : Z) ph : h = Cscal (Cmod h) (Cexp ph) -> Re (h * Cexp (w * IZR n))%C = Cmod h * cos (w * IZR n + ph).
Proof. intros E. rewrite E at 1. unfold Cmul, Cscal, Cexp, Re, Im; cbn [fst snd]. rewrite cos_plus. ring. Qed.

(** ** continuous_leq *)
Lemma mean_square_pos_len f : 0 < mean_square f -> f <> [].
Proof. intros H ->. unfold mean_square in H. cbn [length map rsum] in H. unfold Rdiv in H. rewrite Rmult_0_l in H. lra. Qed.
Lemma feat_leq_ok f : 0 < mean_square f -> feat_leq f = Ok (decibels (mean_square f)).
Proof.
  intros H. pose proof (mean_square_pos_len f H) as Hf. unfold feat_leq, feat_power, feat_energy.
  assert (L : INR (length f) <> 0) by (apply INR_neq0; destruct f; [congruence|cbn [length]; lia]).
  assert (P : forall l c, inner_product l l c = Ok (c + rsum (map (fun x => x * x) l))).
  { induction l as [|x t IH]; intros c; cbn [inner_product map rsum]; [f_equal; ring|]. rewrite IH. f_equal. ring. }
  rewrite P, Rplus_0_l. cbn [bind]. rewrite rdiv_ok by auto. cbn [bind]. fold (mean_square f). unfold pow2db. destruct (Rlt_dec 0 (mean_square f)); [reflexivity|lra].
Qed.
Lemma cleq_levels : forall frames m, (forall f, In f frames -> 0 < mean_square f) ->
  cleq_run m frames = transform ma_tick m (map (fun f => decibels (mean_square f)) frames).
Proof.
  induction frames as [|f t IH]; intros m H; [reflexivity|]. cbn [map]. unfold cleq_run. cbn [transform]. unfold cleq_extract at 1. rewrite feat_leq_ok by (apply H; left; auto). cbn [bind].
  destruct (ma_tick m (decibels (mean_square f))) as [p| |]; cbn [bind]; auto. fold cleq_run. rewrite IH by (intros; apply H; right; auto). reflexivity.
Qed.
Lemma ln_tangent x a : 0 < x -> 0 < a -> ln x <= x / a - 1 + ln a.
Proof.
  intros Hx Ha. assert (Q : 0 < x / a) by (apply Rdiv_lt_0_compat; auto).
  assert (E : ln x = ln (x / a) + ln a) by (rewrite <- ln_mult by auto; f_equal; field; lra).
  rewrite E. pose proof (exp_ineq1_le (ln (x / a))) as I. rewrite exp_ln in I by auto. lra.
Qed.
(** Jensen: the mean of the logarithms is at most the logarithm of the mean. *)
Lemma ln_mean (l : list R) : l <> [] -> (forall x, In x l -> 0 < x) -> rsum (map ln l) / INR (length l) <= ln (rsum l / INR (length l)).
Proof.
  intros Hl H. assert (N : 0 < INR (length l)) by (apply lt_0_INR; destruct l; [congruence|cbn [length]; lia]).
  assert (S : 0 < rsum l).
  { destruct l as [|x t]; [congruence|]. cbn [rsum]. pose proof (H x (or_introl eq_refl)). assert (0 <= rsum t) by (apply rsum_nonneg; intros y Hy; apply Rlt_le, H; right; auto). lra. }
  set (a := rsum l / INR (length l)). assert (A : 0 < a) by (apply Rdiv_lt_0_compat; auto).
  apply Rmult_le_reg_r with (INR (length l)); auto. unfold Rdiv. rewrite Rmult_assoc, Rinv_l, Rmult_1_r by lra.
  apply Rle_trans with (rsum (map (fun x => x / a - 1 + ln a) l)); [apply rsum_le; intros x Hx; apply ln_tangent; auto|].
  apply Req_le. rewrite (rsum_map_ext (fun x => x / a - 1 + ln a) (fun x => / a * x + (ln a - 1))) by (intros; unfold Rdiv; ring).
  rewrite rsum_map_plus, rsum_map_const, (rsum_map_scal (/ a) (fun x => x)), map_id.
  assert (I : / a * rsum l = INR (length l)) by (unfold a; field; lra). rewrite I. ring.
Qed.
(** The last [n] of the first [k+1] samples when there are that many. *)
Lemma window_mean_recent xs n k : (0 < n <= S k)%nat -> (k < length xs)%nat ->
  window_mean (fun x => x) n xs k = rsum (firstn n (skipn (S k - n) xs)) / INR n.
Proof.
  intros Hn Hk. unfold window_mean. f_equal. 
  assert (L : length (firstn n (skipn (S k - n) xs)) = n) by (rewrite firstn_length, skipn_length; lia).
  rewrite rsum_sumf, L. rewrite (sumf_rev (fun i => nth i _ 0)). apply sumf_ext. intros j Hj. unfold past. rewrite (proj2 (Nat.leb_le j k)) by lia.
  rewrite nth_firstn, nth_skipn by lia. f_equal. lia.
Qed.
Lemma cleq_values n frames : (0 < n)%nat -> (forall f, In f frames -> 0 < mean_square f) ->
  exists m ys, cleq_run (cleq_new n) frames = Ok (m, ys) /\ length ys = length frames /\
    forall k, (k < length frames)%nat -> nth_error ys k = Some (window_mean (fun x => x) n (map (fun f => decibels (mean_square f)) frames) k).
Proof.
  intros Hn H. rewrite cleq_levels by auto. unfold cleq_new. destruct (moving_average_lemma n (map (fun f => decibels (mean_square f)) frames) Hn) as [m [ys [E [L V]]]].
  rewrite map_length in *. eauto.
Qed.
Lemma ln10_pos : 0 < ln 10.
Proof. rewrite <- ln_1. apply ln_increasing; lra. Qed.
Lemma mean_decibels fs : fs <> [] -> (forall f, In f fs -> 0 < mean_square f) ->
  rsum (map (fun f => decibels (mean_square f)) fs) / INR (length fs) <= equivalent_level fs.
Proof.
  intros Hf H. assert (L : map mean_square fs <> []) by (destruct fs; [congruence|discriminate]).
  pose proof (ln_mean (map mean_square fs) L) as J. rewrite map_length, map_map in J. unfold equivalent_level, decibels. pose proof ln10_pos as T.
  assert (I : forall x, In x (map mean_square fs) -> 0 < x) by (intros x Hx; apply in_map_iff in Hx as [f [<- F]]; auto). specialize (J I).
  rewrite (rsum_map_ext (fun f => 10 * (ln (mean_square f) / ln 10)) (fun f => (10 / ln 10) * ln (mean_square f))) by (intros; field; lra).
  rewrite (rsum_map_scal (10 / ln 10) (fun f => ln (mean_square f))). assert (P : 0 < 10 / ln 10) by (apply Rdiv_lt_0_compat; lra).
  unfold Rdiv at 1. rewrite Rmult_assoc. replace (10 * (ln (rsum (map mean_square fs) / INR (length fs)) / ln 10)) with (10 / ln 10 * ln (rsum (map mean_square fs) / INR (length fs))) by (field; lra).
  apply Rmult_le_compat_l; [lra|exact J].
Qed.
