(** Properties C105-C110. *)
From Verif Require Import Base BaseProofs RealBase RealBaseProofs SignalSpec BiquadModel BiquadSpec MovingModel MovingSpec FeatModel WindowModel WindowSpec WindowProps OscModel OscSpec OscProps IOModel ExtraModel ExtraSpec ExtraProofs ExtraObj Cplx CplxProofs.
Local Open Scope R_scope.
Local Open Scope res_scope.

(** ** C105: the evaluated frequency response *)
Lemma count_of n : (n < 2 ^ 62)%nat -> Z.to_nat (Z.of_nat n mod 2 ^ 64) = n.
Proof.
  intros H. rewrite Z.mod_small; [apply Nat2Z.id|]. split; [lia|].
  apply Nat2Z.inj_lt in H. rewrite Nat2Z.inj_pow in H. change (Z.of_nat 2) with 2%Z in H. change (Z.of_nat 62) with 62%Z in H.
  assert (2 ^ 62 < 2 ^ 64)%Z by reflexivity. lia.
Qed.
(** freq(b, a, d_first, K) stores at the K cells from d_first on the transfer function of the
    filter at the frequencies pi k / K, and nothing else. *)
Theorem C105_freq (b a : list R) (mem : list C) (d n : nat) :
  (n < 2 ^ 62)%nat -> b <> [] -> a <> [] -> (d + n <= length mem)%nat ->
  (forall k, (k < n)%nat -> polynomial a (Cexp (- (PI * INR k / INR n))) <> C0) ->
  freq b a mem d (Z.of_nat n) = Ok (overwritten mem d (map (fun k => transfer b a (PI * INR k / INR n)) (seq 0 n))).
Proof.
  intros Hn Hb Ha Hd Hz. unfold freq. rewrite count_of by auto. rewrite <- INR_IZR_INZ. destruct n as [|n].
  - cbn [freq_loop seq map]. unfold overwritten. cbn [app length]. rewrite Nat.add_0_r, firstn_skipn. reflexivity.
  - apply freq_loop_ok; auto; try lia. intros i Hi. apply Hz. lia.
Qed.
(** Each stored value [h] is the steady-state gain: with the input cos(w n) at all times, the
    signal Re(h e^{jwn}), of amplitude |h|, satisfies the filter's difference equation. *)
Theorem C105_freq_steady_state (b a : list R) (mem out : list C) (d n k : nat) (h : C) :
  (n < 2 ^ 62)%nat -> (d + n <= length mem)%nat -> freq b a mem d (Z.of_nat n) = Ok out -> (k < n)%nat -> nth_error out (d + k) = Some h ->
  let w := PI * INR k / INR n in
  difference_equation b a (fun t => cos (w * IZR t)) (fun t => Re (h * Cexp (w * IZR t))%C) /\
  forall ph, h = Cscal (Cmod h) (Cexp ph) ->
    difference_equation b a (fun t => cos (w * IZR t)) (fun t => Cmod h * cos (w * IZR t + ph)).
Proof.
  intros Hn Hd E Hk Hh w. assert (Hb : b <> []) by (intros ->; unfold freq in E; rewrite count_of in E by auto; destruct n; [lia|discriminate]).
  assert (Ha : a <> []).
  { intros ->. unfold freq in E. rewrite count_of in E by auto. destruct n as [|n]; [lia|]. cbn [freq_loop] in E. destruct (freq_poly 0 (IZR (Z.of_nat (S n))) b); discriminate. }
  assert (Hz : forall i, (i < n)%nat -> polynomial a (Cexp (- (PI * INR i / INR n))) <> C0).
  { intros i Hi Z. unfold freq in E. rewrite count_of, <- INR_IZR_INZ in E by auto. rewrite freq_loop_zero in E; [discriminate|lia|auto|auto|lia|]. exists i. split; [lia|auto]. }
  rewrite C105_freq in E by auto. injection E as <-. unfold overwritten in Hh. rewrite nth_error_app2 in Hh by (rewrite firstn_length; lia).
  rewrite firstn_length, Nat.min_l in Hh by lia. replace (d + k - d)%nat with k in Hh by lia. rewrite nth_error_app1 in Hh by (rewrite map_length, seq_length; auto).
  erewrite map_nth_error in Hh; [|apply (nth_error_nth' (seq 0 n) 0%nat); rewrite seq_length; auto]. rewrite seq_nth in Hh by auto. cbn [plus] in Hh. fold w in Hh. injection Hh as Hh.
  assert (D : difference_equation b a (fun t => cos (w * IZR t)) (fun t => Re (h * Cexp (w * IZR t))%C)) by (rewrite <- Hh; apply steady_state, Hz; auto).
  split; auto. intros ph P t. specialize (D t). cbn beta in D. rewrite <- D. apply sumf_ext. intros m _. f_equal. symmetry. apply steady_polar; auto.
Qed.
(** The values agree with the transfer function B(z)/A(z) used for second-order sections. *)
Theorem C105_freq_biquad (A1 A2 B0 B1 B2 w : R) :
  transfer [B0; B1; B2] [1; A1; A2] w = (tf_num B0 B1 B2 (Cexp w) / tf_den A1 A2 (Cexp w))%C.
Proof.
  assert (N : forall c0 c1 c2, polynomial [c0; c1; c2] (Cexp (- w)) = (Cexp (-2 * w) * (RtoC c0 * Cexp w * Cexp w + RtoC c1 * Cexp w + RtoC c2))%C).
  { intros c0 c1 c2. unfold polynomial. cbn [length csumf nth Cpow]. replace (-2 * w) with (- w + - w) by ring. rewrite Cexp_add. 
    assert (I : (Cexp (- w) * Cexp w)%C = C1) by (rewrite <- Cexp_add, Rplus_opp_l; apply Cexp_0).
    set (u := Cexp (- w)) in *. set (v := Cexp w) in *. clearbody u v.
    transitivity (RtoC c0 * ((u * v) * (u * v)) + RtoC c1 * (u * (u * v)) + RtoC c2 * (u * u))%C; [rewrite I|]; apply C_eq; unfold Cmul, Cadd, C0, C1, RtoC, Re, Im; cbn [fst snd]; ring. }
  unfold transfer. rewrite !N. unfold tf_num, tf_den. assert (E0 : Cexp (-2 * w) <> C0) by apply Cexp_neq0.
  replace (RtoC 1 * Cexp w * Cexp w + RtoC A1 * Cexp w + RtoC A2)%C with (Cexp w * Cexp w + RtoC A1 * Cexp w + RtoC A2)%C by (apply C_eq; unfold Cmul, Cadd, RtoC, Re, Im; cbn [fst snd]; ring).
  set (p := Cexp (-2 * w)) in *. set (B := (_ + _ + RtoC B2)%C). set (A := (_ + _ + RtoC A2)%C). clearbody p A B.
  destruct C_field_theory as [[] F1 F2 F3]. rewrite (F2 B A), (F2 (p * B)%C (p * A)%C).
  assert (I : Cinv (p * A)%C = (Cinv p * Cinv A)%C).
  { unfold Cinv, Cmul, Re, Im. cbn [fst snd]. destruct p as [p1 p2], A as [x y]. cbn [fst snd]. unfold Cnorm2, Re, Im. cbn [fst snd].
    pose proof (C_neq0 _ E0) as P. unfold Cnorm2, Re, Im in P. cbn [fst snd] in P.
    destruct (Req_dec (x * x + y * y) 0) as [Z|Z].
    - assert (x = 0) by nra. assert (y = 0) by nra. subst. unfold Rdiv. apply C_eq; cbn; ring.
    - assert (Q : (p1 * x - p2 * y) * (p1 * x - p2 * y) + (p1 * y + p2 * x) * (p1 * y + p2 * x) = (p1 * p1 + p2 * p2) * (x * x + y * y)) by ring.
      rewrite Q. apply C_eq; unfold Re, Im; cbn [fst snd]; field; split; auto; lra. }
  rewrite I. transitivity ((Cinv p * p) * (B * Cinv A))%C; [apply C_eq; unfold Cmul, Re, Im; cbn [fst snd]; ring|]. rewrite F3 by auto. apply C_eq; unfold Cmul, C1, Re, Im; cbn [fst snd]; ring.
Qed.
(** A pole on the evaluation grid has no finite value; without room, without coefficients or with a
    negative K the call does not complete. *)
Theorem C105_freq_undefined (b a : list R) (mem : list C) (d n : nat) (K : Z) :
  ((n < 2 ^ 62)%nat -> b <> [] -> a <> [] -> (d + n <= length mem)%nat ->
     (exists k, (k < n)%nat /\ polynomial a (Cexp (- (PI * INR k / INR n))) = C0) -> freq b a mem d (Z.of_nat n) = NonFinite) /\
  ((- 2 ^ 63 <= K < 0)%Z -> (Z.of_nat (length mem) < 2 ^ 63)%Z -> forall m, freq b a mem d K <> Ok m) /\
  ((0 < n < 2 ^ 62)%nat -> (length mem < d + n)%nat \/ b = [] \/ a = [] -> forall m, freq b a mem d (Z.of_nat n) <> Ok m).
Proof.
  split; [|split].
  - intros Hn Hb Ha Hd [k [Hk Z]]. unfold freq. rewrite count_of by auto. rewrite <- INR_IZR_INZ. apply freq_loop_zero; auto; [lia|]. exists k. split; [lia|auto].
  - intros HK Hm m. unfold freq. assert (E : (K mod 2 ^ 64 = K + 2 ^ 64)%Z) by (rewrite <- (Z_mod_plus_full K 1 (2 ^ 64)), Z.mod_small; lia). rewrite E.
    apply freq_loop_not_ok; apply Nat2Z.inj_lt; rewrite ?Nat2Z.inj_add, ?Z2Nat.id by lia; lia.
  - intros Hn H m. unfold freq. rewrite count_of by lia. destruct H as [H|[->| ->]]; [apply freq_loop_not_ok; lia| |]; destruct n as [|n]; try lia; cbn [freq_loop]; [discriminate|]. destruct (freq_poly 0 _ b); discriminate.
Qed.
(** The hypotheses are met: the one-pole filter y[n] = x[n] + y[n-1]/2 at four points. *)
Example C105_ex : forall k, polynomial [1; -1/2] (Cexp (- (PI * INR k / INR 4))) <> C0.
Proof.
  intros k E. set (t := - (PI * INR k / INR 4)) in *. assert (R1 := f_equal Re E). unfold polynomial in R1. cbn [length csumf nth Cpow] in R1. unfold Cadd, Cmul, RtoC, C1, C0, Cexp, Re, Im in R1. cbn [fst snd] in R1.
  pose proof (COS_bound t). lra.
Qed.

(** ** C106: the continuous equivalent level *)
(** What extract() returns for non-silent frames: the mean of the levels (not the level of the mean
    power) of the last [n] frames, missing frames counted as 0 dB. *)
Theorem C106_leq_actual (n : nat) (frames : list (list R)) : (0 < n)%nat -> (forall f, In f frames -> 0 < mean_square f) ->
  exists m ys, cleq_run (cleq_new n) frames = Ok (m, ys) /\ length ys = length frames /\
    forall k, (k < length frames)%nat -> nth_error ys k = Some (window_mean (fun x => x) n (map (fun f => decibels (mean_square f)) frames) k).
Proof. apply cleq_values. Qed.
(** The two frames 1 and 10 over a window of two frames: the answer is 10 dB, while the equivalent
    level is 10 log10 50.5, above 17 dB. *)
Theorem C106_leq_refuted : exists m y1 y2, cleq_run (cleq_new 2) [[1]; [10]] = Ok (m, [y1; y2]) /\ y2 = 10 /\
  equivalent_level [[1]; [10]] > 17.
Proof.
  assert (M1 : mean_square [1] = 1) by (unfold mean_square; cbn; field). assert (M2 : mean_square [10] = 100) by (unfold mean_square; cbn; field).
  destruct (C106_leq_actual 2 [[1]; [10]] ltac:(lia)) as [m [ys [E [L V]]]].
  { intros f [<-|[<-|[]]]; lra. }
  cbn [length] in *. destruct ys as [|y1 [|y2 [|]]]; try discriminate. exists m, y1, y2. split; auto.
  pose proof ln10_pos as T. assert (D2 : ln 100 = 2 * ln 10) by (replace 100 with (10 * 10) by ring; rewrite ln_mult by lra; ring).
  split.
  - specialize (V 1%nat ltac:(lia)). cbn [nth_error] in V. injection V as V. rewrite V. unfold window_mean, past. cbn [map sumf nth Nat.leb Nat.sub]. rewrite M1, M2. unfold decibels. rewrite ln_1, D2. simpl INR. field. lra.
  - unfold equivalent_level. cbn [map rsum length]. rewrite M1, M2. unfold decibels. simpl INR. replace ((1 + (100 + 0)) / (1 + 1)) with (101 / 2) by field.
    assert (P : 17 * ln 10 < 10 * ln (101 / 2)).
    { replace (17 * ln 10) with (ln (10 ^ 17)) by (rewrite ln_pow by lra; simpl INR; ring). replace (10 * ln (101 / 2)) with (ln ((101 / 2) ^ 10)) by (rewrite ln_pow by lra; simpl INR; ring). apply ln_increasing; [apply pow_lt; lra|]. simpl. lra. }
    apply Rlt_gt. apply Rmult_lt_reg_r with (ln 10); auto. replace (10 * (ln (101 / 2) / ln 10) * ln 10) with (10 * ln (101 / 2)) by (field; lra). lra.
Qed.
(** Once the window is full the answer never exceeds the equivalent level of the last [n] frames, and
    equals it when these have the same power. *)
Theorem C106_leq_partial (n : nat) (frames : list (list R)) (k : nat) : (0 < n)%nat -> (forall f, In f frames -> 0 < mean_square f) -> (n <= S k)%nat -> (k < length frames)%nat ->
  exists m ys y, cleq_run (cleq_new n) frames = Ok (m, ys) /\ nth_error ys k = Some y /\
    let recent := firstn n (skipn (S k - n) frames) in
    y <= equivalent_level recent /\ ((forall f g, In f recent -> In g recent -> mean_square f = mean_square g) -> y = equivalent_level recent).
Proof.
  intros Hn H Hk Hl. destruct (C106_leq_actual n frames Hn H) as [m [ys [E [L V]]]]. exists m, ys. eexists. split; [exact E|]. split; [apply V; auto|].
  rewrite window_mean_recent by (rewrite ?map_length; lia). rewrite skipn_map, firstn_map. set (r := firstn n (skipn (S k - n) frames)).
  assert (LR : length r = n) by (unfold r; rewrite firstn_length, skipn_length; lia).
  assert (HR : forall f, In f r -> 0 < mean_square f).
  { intros f I. apply H. unfold r in I. rewrite <- (firstn_skipn (S k - n) frames). apply in_or_app. right. rewrite <- (firstn_skipn n (skipn (S k - n) frames)). apply in_or_app. auto. }
  assert (NE : r <> []) by (intros Q; rewrite Q in LR; cbn in LR; lia). cbn zeta. fold r. split.
  - rewrite <- LR at 1. apply mean_decibels; auto.
  - intros Q. destruct r as [|f0 t] eqn:Er; [congruence|]. rewrite <- Er in *. assert (F : forall f, In f r -> mean_square f = mean_square f0) by (intros f I; apply Q; auto; rewrite Er; left; auto).
    assert (N : INR n <> 0) by (apply INR_neq0; lia).
    unfold equivalent_level. rewrite (rsum_map_ext (fun f => decibels (mean_square f)) (fun _ => decibels (mean_square f0))) by (intros f I; rewrite F; auto).
    rewrite (rsum_map_ext mean_square (fun _ => mean_square f0)) by (intros f I; rewrite F; auto). rewrite !rsum_map_const, LR.
    replace (INR n * decibels (mean_square f0) / INR n) with (decibels (mean_square f0)) by (field; auto). f_equal. field; auto.
Qed.
(** A silent or empty frame has no level. *)
Theorem C106_leq_silent (m : mfilter) (k : nat) : forall r, cleq_extract m (repeat 0 k) <> Ok r.
Proof.
  intros r. unfold cleq_extract, feat_leq, feat_power, feat_energy. assert (P : forall l c, inner_product l l c = Ok (c + rsum (map (fun x => x * x) l))).
  { induction l as [|x t IH]; intros c; cbn [inner_product map rsum]; [f_equal; ring|]. rewrite IH. f_equal. ring. }
  rewrite P. cbn [bind]. assert (Z : rsum (map (fun x => x * x) (repeat 0 k)) = 0) by (induction k; cbn; [auto|rewrite IHk; ring]). rewrite Z, Rplus_0_l.
  unfold rdiv. destruct (Req_EM_T _ 0); cbn [bind]; [discriminate|]. unfold pow2db. unfold Rdiv. rewrite Rmult_0_l. destruct (Rlt_dec 0 0); [lra|]. discriminate.
Qed.
Example C106_ex : forall f, In f [[1; -2]; [3; 4]] -> 0 < mean_square f.
Proof. intros f [<-|[<-|[]]]; unfold mean_square; cbn; lra. Qed.

(** ** C107: distances *)
(** distance<manhattan> is the signed difference: negative, antisymmetric. *)
Theorem C107_manhattan_refuted : exists d, (forall x y, ndistance manhattan x y = Ok (d x y)) /\ ~ nonnegative_fn d /\ ~ symmetric_fn d.
Proof.
  exists (fun x y => x - y). split; [reflexivity|]. split.
  - intros H. specialize (H 0 1). lra.
  - intros H. specialize (H 0 1). lra.
Qed.
(** distance<euclidean> is the squared difference: non-negative, symmetric, zero exactly on equal
    arguments, but without the triangle inequality. *)
Theorem C107_euclidean_actual : exists d, (forall x y, ndistance euclidean x y = Ok (d x y)) /\
  (forall x y, d x y = Rabs (x - y) * Rabs (x - y)) /\ nonnegative_fn d /\ symmetric_fn d /\ separates d /\ ~ triangle_inequality d.
Proof.
  exists (fun x y => (x - y) * (x - y)). split; [reflexivity|]. split; [intros; rewrite <- Rabs_mult, Rabs_right; auto; apply Rle_ge; apply Rle_0_sqr|]. split; [intros x y; apply Rle_0_sqr|]. split; [intros x y; ring|]. split.
  - intros x y. split; [intros H; apply Rsqr_0_uniq in H; lra|intros ->; ring].
  - intros H. specialize (H 0 1 2). lra.
Qed.
(** distance<logarithmic> is the signed log ratio of the magnitudes: defined for non-zero arguments
    only, antisymmetric, zero when the magnitudes are equal. *)
Theorem C107_logarithmic_actual (x y : R) :
  (x <> 0 -> y <> 0 -> ndistance logarithmic x y = Ok (ln (Rabs x) - ln (Rabs y))) /\
  (x = 0 \/ y = 0 -> ndistance logarithmic x y = NonFinite) /\
  (x <> 0 -> y <> 0 -> (ndistance logarithmic x y = Ok 0 <-> Rabs x = Rabs y)).
Proof.
  assert (V : x <> 0 -> y <> 0 -> ndistance logarithmic x y = Ok (ln (Rabs x) - ln (Rabs y))).
  { intros Hx Hy. unfold ndistance. assert (0 < Rabs x) by (apply Rabs_pos_lt; auto). assert (0 < Rabs y) by (apply Rabs_pos_lt; auto).
    rewrite rdiv_ok by lra. cbn [bind]. rewrite rlog_ok by (apply Rdiv_lt_0_compat; auto). f_equal. unfold Rdiv. rewrite ln_mult, ln_Rinv; auto. apply Rinv_0_lt_compat; auto. }
  split; auto. split.
  - intros H. unfold ndistance. destruct (Req_dec y 0) as [->|Hy]; [rewrite Rabs_R0, rdiv_zero; reflexivity|]. destruct H as [->|]; [|contradiction].
    rewrite rdiv_ok by (apply Rabs_no_R0; auto). cbn [bind]. rewrite Rabs_R0. unfold Rdiv, rlog. rewrite Rmult_0_l. destruct (Rlt_dec 0 0); [lra|reflexivity].
  - intros Hx Hy. rewrite V by auto. split; [intros E; injection E as E; apply ln_inv; try (apply Rabs_pos_lt; auto); lra|intros ->; f_equal; lra].
Qed.
Theorem C107_logarithmic_refuted : exists d, ndistance logarithmic 1 2 = Ok d /\ d < 0 /\ ndistance logarithmic 1 (-1) = Ok 0.
Proof.
  exists (ln (Rabs 1) - ln (Rabs 2)). split; [apply C107_logarithmic_actual; lra|]. split.
  - rewrite !Rabs_right by lra. rewrite ln_1. assert (ln 1 < ln 2) by (apply ln_increasing; lra). rewrite ln_1 in H. lra.
  - apply C107_logarithmic_actual; try lra. rewrite (Rabs_left (-1)), Rabs_right by lra; lra.
Qed.

(** ** C108: the factories deliver what their argument names *)
Theorem C108_make_window (t : WindowType) (n : nat) : (2 <= n)%nat ->
  match window_coefficients t with
  | Some c => make_window t n = Ok (map (cosine_sum c n) (seq 0 n))
  | None => match t with
            | Bartlett => make_window t n = Ok (map (WindowSpec.triangle ((INR n - 1) / 2) ((INR n - 1) / 2)) (seq 0 n))
            | Triangular => make_window t n = Ok (map (WindowSpec.triangle ((INR n - 1) / 2) (tri_half n)) (seq 0 n))
            | _ => make_window t n = Ok (map (parabola (INR (n / 2)) (INR (n / 2))) (seq 0 n))
            end
  end.
Proof.
  intros Hn. destruct (C30_values n Hn) as (V1 & V2 & V3 & V4 & V5 & V6).
  assert (B : boxcar n = Ok (map (cosine_sum [1] n) (seq 0 n))).
  { unfold boxcar. f_equal. transitivity (map (fun _ => 1) (seq 0 n)).
    - clear. generalize 0%nat. induction n as [|n IH]; intros k; cbn [repeat seq map]; [reflexivity|]. rewrite <- IH. reflexivity.
    - apply map_ext. intros i. unfold cosine_sum. cbn [length sumf nth]. simpl INR. unfold Rdiv. rewrite !Rmult_0_r, !Rmult_0_l, cos_0. simpl. ring. }
  assert (X : forall c c', c = c' -> map (cosine_sum c n) (seq 0 n) = map (cosine_sum c' n) (seq 0 n)) by (intros ? ? ->; reflexivity).
  destruct t; cbn [window_coefficients make_window]; auto.
  - destruct (C31_bartlett n Hn) as [w [E [-> _]]]. exact E.
  - rewrite V3. f_equal. apply X. unfold blackman_c. replace (50 / 100) with (1 / 2) by lra. reflexivity.
  - rewrite V1. f_equal. apply X. unfold hanning_c. replace (5 / 10) with (1 / 2) by lra. reflexivity.
  - destruct (C31_triangular n ltac:(lia)) as [w [E [-> _]]]. exact E.
  - destruct (C31_welch_actual n Hn) as [w [E [_ [_ [-> _]]]]]. exact E.
Qed.
Theorem C108_make_oscillator (t : OscillatorType) (amp sr f x : R) (n : nat) : 0 < sr -> 0 < f -> 0 <= x <= 1 ->
  exists o tick o', make_oscillator t amp sr f x = Ok (o, tick) /\
  osc_run tick o n = Ok (o', map (fun i => (match t with Square => - amp | _ => amp end) * waveform t x (f * INR i / sr)) (seq 0 n)).
Proof.
  intros Hs Hf Hx. destruct t; cbn [make_oscillator].
  - destruct (C47_sine_samples amp sr f x n Hs Hf) as [o [o' [E R]]]. rewrite E. cbn [bind]. exists o, sin_tick, o'. split; auto.
  - destruct (C47_square_actual amp sr f x n Hs Hf Hx) as [o [o' [E R]]]. rewrite E. cbn [bind]. exists o, square_tick, o'. split; auto. rewrite R. f_equal. f_equal. apply map_ext. intros i. cbn [waveform]. ring.
  - destruct (C47_triangular_samples amp sr f n Hs Hf) as [o [o' [out [E [R [V _]]]]]]. rewrite E. cbn [bind]. exists o, sawtooth_tick, o'. split; auto. rewrite R, V. reflexivity.
  - destruct (C47_sawtooth_samples amp sr f x n Hs Hf Hx) as [o [o' [out [E [R [V _]]]]]]. rewrite E. cbn [bind]. exists o, sawtooth_tick, o'. split; auto. rewrite R, V. reflexivity.
Qed.
Example C108_ex : 0 < 44100 /\ 0 < 440 /\ 0 <= 1/4 <= 1. Proof. lra. Qed.

(** ** C109: copies of objects that own a handle *)
(** Copying an open decoder, encoder or resampler: whatever the rest of the program (without
    assignments) does, it has no defined execution in which all objects are destroyed. *)
Theorem C109_copy_refuted call before after i h s1 s2 : In call [af_hop; snd_hop; src_hop] ->
  prun call pfresh before = Ok s1 -> holds s1 i h -> forallb (fun c => negb (assigns c)) after = true ->
  prun call pfresh (before ++ PCopy i :: after) = Ok s2 -> ~ all_destroyed s2.
Proof.
  intros HI E H A F. assert (R : releases call) by (destruct HI as [<-|[<-|[<-|[]]]]; [apply af_releases|apply snd_releases|apply src_releases]).
  rewrite prun_app, E in F. cbn [bind prun] in F. apply bind_Ok in F as [s3 [F1 F2]]. apply doomed_not_done. eapply doomed_run; eauto. eapply copy_dooms; eauto.
Qed.
(** The smallest such programs are undefined. *)
Theorem C109_copy_destroy_ub call : In call [af_hop; snd_hop; src_hop] ->
  prun call pfresh [PNew; PCall 0 (HOpen true); PCopy 0; PDestroy 1; PDestroy 0] = UB.
Proof. intros [<-|[<-|[<-|[]]]]; reflexivity. Qed.
(** Assigning over an open decoder loses its handle: it is never closed by any continuation. *)
Theorem C109_assign_refuted before after i j h s1 s2 : forallb (fun c => negb (copies c)) before = true ->
  prun af_hop pfresh before = Ok s1 -> holds s1 i h -> i <> j -> prun af_hop pfresh (before ++ PAssign i j :: after) = Ok s2 ->
  In h (opened (w_ s2)) /\ ~ In h (closed (w_ s2)).
Proof.
  intros C E H N F. pose proof (tidy_run before _ _ tidy_fresh C E) as T. rewrite prun_app, E in F. cbn [bind prun] in F. apply bind_Ok in F as [s3 [F1 F2]].
  assert (L : lost s3 h).
  { apply passign_inv in F1 as [x [Hx [Ew [U1 [U2 U3]]]]]. destruct (t_live _ T _ _ H) as [L1 L2]. unfold lost. rewrite Ew. split; auto. split; auto. split; [|apply T].
    intros k Hk. destruct (Nat.eq_dec k i) as [->|Nk].
    - unfold holds in Hk. rewrite U1 in Hk. injection Hk as ->. apply N. apply (t_single _ T i j h); auto.
    - unfold holds in Hk. rewrite U3 in Hk by auto. apply Nk. apply (t_single _ T k i h); auto. }
  apply (lost_run _ af_hands after _ _ _ L) in F2. split; apply F2.
Qed.
(** Without copies and assignments, any number of audiofile decoders used in any order is safe: the
    program is defined up to its first misuse, and when all objects are destroyed every handle opened
    has been closed exactly once. *)
Theorem C109_no_copy_partial (cs : list pcmd) : forallb (fun c => negb (copies c)) cs = true ->
  (forall s, prun af_hop pfresh cs = Ok s -> all_destroyed s -> each_closed_once (w_ s)) /\
  ((exists s, prun af_hop pfresh cs = Ok s) \/
   (prun af_hop pfresh cs = UB /\ exists pre c post s, cs = pre ++ c :: post /\ prun af_hop pfresh pre = Ok s /\ misuse s c)).
Proof.
  intros C. split; [intros s E A; apply tidy_done; auto; eapply tidy_run; eauto; apply tidy_fresh|].
  assert (G : forall cs s0 pre0, forallb (fun c => negb (copies c)) cs = true -> tidy s0 -> prun af_hop pfresh pre0 = Ok s0 ->
    (exists s, prun af_hop s0 cs = Ok s) \/ (prun af_hop s0 cs = UB /\ exists pre c post s, pre0 ++ cs = pre ++ c :: post /\ prun af_hop pfresh pre = Ok s /\ misuse s c)).
  { clear. induction cs as [|c t IH]; intros s0 pre0 C T E; [left; eexists; reflexivity|]. cbn [forallb] in C. apply andb_true_iff in C as [C1 C2]. apply negb_true_iff in C1.
    cbn [prun]. destruct (tidy_progress s0 c T C1) as [[s1 P]|[M P]]; rewrite P; cbn [bind].
    - destruct (IH s1 (pre0 ++ [c]) C2 (tidy_step _ _ _ T C1 P)) as [I|[I [pre [c' [post [s [Q I2]]]]]]].
      + rewrite prun_app, E. cbn [bind prun]. rewrite P. reflexivity.
      + left; auto.
      + right. split; auto. exists pre, c', post, s. split; auto. rewrite <- Q, <- app_assoc. reflexivity.
    - right. split; auto. exists pre0, c, t, s0. auto. }
  apply (G cs pfresh [] C tidy_fresh eq_refl).
Qed.
Example C109_ex : exists s, prun af_hop pfresh [PNew; PNew; PCall 0 (HOpen true); PCall 1 (HOpen true); PCall 0 HUse; PDestroy 0; PDestroy 1] = Ok s /\ all_destroyed s /\ opened (w_ s) = [0; 1]%nat.
Proof. eexists. split; [reflexivity|]. split; [intros o [<-|[<-|[]]]; reflexivity|reflexivity]. Qed.
Example C109_ex_open : exists s, prun af_hop pfresh [PNew; PNew; PCall 0 (HOpen true)] = Ok s /\ holds s 0 0.
Proof. eexists. split; reflexivity. Qed.

(** ** C110: the histogram *)
(** compute() writes nothing: the destination keeps its contents, whatever they are. *)
Theorem C110_histogram_actual num_bins cache samples out : hist_compute num_bins cache samples out = Ok out.
Proof. reflexivity. Qed.
(** For every non-empty signal with at least one bin there is a destination for which the result is
    not the histogram, whichever range the bins are laid over. *)
Theorem C110_histogram_refuted num_bins cache samples : (1 <= num_bins)%nat ->
  exists out, length out = num_bins /\ forall lo hi, hist_compute num_bins cache samples out <> Ok (histogram_of num_bins lo hi samples).
Proof.
  intros H. exists (repeat (0, -1) num_bins). split; [apply repeat_length|]. intros lo hi E. unfold hist_compute in E. injection E as E.
  unfold histogram_of in E. destruct num_bins as [|k]; [lia|]. cbn [repeat seq map] in E. apply (f_equal (fun l => snd (hd (0, 0) l))) in E. cbn [hd snd] in E.
  assert (P : 0 <= INR (length (filter (in_bin lo ((hi - lo) / INR (S k)) 0 (S k)) samples)) / INR (length samples)).
  { unfold Rdiv. apply Rmult_le_pos; [apply pos_INR|]. destruct samples as [|x t]; [simpl; rewrite Rinv_0; lra|]. apply Rlt_le, Rinv_0_lt_compat, lt_0_INR. cbn [length]. lia. }
  rewrite <- E in P. lra.
Qed.
Print Assumptions C105_freq.
Print Assumptions C105_freq_steady_state.
Print Assumptions C105_freq_biquad.
Print Assumptions C105_freq_undefined.
Print Assumptions C106_leq_actual.
Print Assumptions C106_leq_refuted.
Print Assumptions C106_leq_partial.
Print Assumptions C106_leq_silent.
Print Assumptions C107_manhattan_refuted.
Print Assumptions C107_euclidean_actual.
Print Assumptions C107_logarithmic_actual.
Print Assumptions C107_logarithmic_refuted.
Print Assumptions C108_make_window.
Print Assumptions C108_make_oscillator.
Print Assumptions C109_copy_refuted.
Print Assumptions C109_copy_destroy_ub.
Print Assumptions C109_assign_refuted.
Print Assumptions C109_no_copy_partial.
Print Assumptions C110_histogram_actual.
Print Assumptions C110_histogram_refuted.
