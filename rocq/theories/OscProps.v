(** Theorems C47, C48: oscillators. *)
From Verif Require Import RealBase RealBaseProofs BaseProofs AlgModel AlgSpec AlgProofs NumModel NumProps OscModel OscSpec.
Local Open Scope R_scope.
Local Open Scope res_scope.

Lemma cycle_bound x : 0 <= cycle x < 1.
Proof. unfold cycle. destruct (base_Int_part x). lra. Qed.
Lemma cycle_Z x k : cycle (x + IZR k) = cycle x.
Proof.
  unfold cycle. destruct (base_Int_part x) as [A B], (base_Int_part (x + IZR k)) as [C D]. enough (Int_part (x + IZR k) = (Int_part x + k)%Z) as -> by (rewrite plus_IZR; ring).
  assert (IZR (Int_part (x + IZR k)) < IZR (Int_part x + k + 1)) by (rewrite !plus_IZR; lra). assert (IZR (Int_part x + k) < IZR (Int_part (x + IZR k) + 1)) by (rewrite !plus_IZR; lra).
  apply lt_IZR in H, H0. lia.
Qed.
Lemma rfmod_cycle x y : 0 <= x -> 0 < y -> rfmod x y = Ok (y * cycle (x / y)).
Proof.
  intros Hx Hy. unfold rfmod. rewrite rdiv_ok by lra. cbn [bind]. assert (0 <= x / y) by (apply Rmult_le_pos; [auto|]; apply Rlt_le, Rinv_0_lt_compat; auto).
  unfold ctrunc. destruct (Rlt_dec (x / y) 0); [lra|]. unfold cfloor, cycle. f_equal. field. lra.
Qed.

(** Running an oscillator whose tick value depends on the time only. *)
Lemma osc_run_values tick (val : R -> R) o n : 0 <= timestamp o -> 0 <= sampling_period o ->
  (forall o', (exists t, 0 <= t /\ o' = set_timestamp o t) -> tick o' = Ok (advance o', val (timestamp o'))) ->
  osc_run tick o n = Ok (set_timestamp o (timestamp o + INR n * sampling_period o), map (fun i => val (timestamp o + INR i * sampling_period o)) (seq 0 n)).
Proof.
  intros Ht Hp Hv. assert (G : forall n t, 0 <= t -> osc_run tick (set_timestamp o t) n = Ok (set_timestamp o (t + INR n * sampling_period o), map (fun i => val (t + INR i * sampling_period o)) (seq 0 n))).
  { clear n Ht. induction n as [|n IH]; intros t Ht; cbn [osc_run]; [simpl; rewrite Rmult_0_l, Rplus_0_r; reflexivity|].
    rewrite Hv by eauto. cbn [bind fst snd]. change (advance (set_timestamp o t)) with (set_timestamp o (t + sampling_period o)). rewrite IH by lra. cbn [bind fst snd].
    f_equal. f_equal; [f_equal; rewrite S_INR; ring|]. cbn [seq map]. f_equal; [simpl; f_equal; ring|]. rewrite <- seq_shift, map_map. apply map_ext. intros i. rewrite S_INR. f_equal. ring. }
  specialize (G n (timestamp o) Ht). destruct o; exact G.
Qed.
Lemma new_ok amp sr f ph : 0 < sr -> 0 < f -> osc_new amp sr f ph = Ok (mkOsc amp 0 sr (/ sr) f (/ f) ph 0).
Proof. intros. unfold osc_new, ninv. rewrite !rdiv_ok by lra. cbn [bind]. unfold Rdiv. rewrite !Rmult_1_l. reflexivity. Qed.

(** ** Sine *)
Theorem C47_sine_samples amp sr f ph n : 0 < sr -> 0 < f -> exists o o', sin_new amp sr f ph = Ok o /\
  osc_run sin_tick o n = Ok (o', map (fun i => amp * sin (2 * PI * (f * INR i / sr) + ph)) (seq 0 n)).
Proof.
  intros Hs Hf. eexists. eexists. split; [apply new_ok; auto|]. rewrite (osc_run_values sin_tick (fun t => amp * sin (2 * PI * f * t + ph))).
  - cbn [timestamp sampling_period]. f_equal. f_equal. apply map_ext. intros i. f_equal. f_equal. field. lra.
  - simpl; lra.
  - simpl. left. apply Rinv_0_lt_compat; auto.
  - intros o' [t [Ht ->]]. unfold sin_tick. cbn. f_equal. f_equal. ring.
Qed.
Theorem C47_sine_range amp sr f ph n o o' out x : sin_new amp sr f ph = Ok o -> osc_run sin_tick o n = Ok (o', out) -> In x out -> Rabs x <= Rabs amp.
Proof.
  intros E R I. assert (A : amplitude o = amp) by (unfold sin_new, osc_new in E; destruct (ninv sr); try discriminate; cbn [bind] in E; destruct (ninv f); try discriminate; injection E as <-; reflexivity).
  clear E. revert o A out o' R I. induction n as [|n IH]; intros o A out o' R I; cbn [osc_run] in R.
  - injection R as _ <-. destruct I.
  - unfold sin_tick at 1 in R. cbn [bind fst snd] in R. destruct (osc_run sin_tick (advance o) n) as [[o2 l2]| |] eqn:E; try discriminate. cbn [bind fst snd] in R. injection R as _ <-. destruct I as [<-|I].
    + rewrite A, Rabs_mult. rewrite <- (Rmult_1_l (Rabs amp)) at 2. apply Rmult_le_compat_r; [apply Rabs_pos|]. apply Rabs_le. apply SIN_bound.
    + apply (IH (advance o) A l2 o2); auto.
Qed.
Lemma sin_period_Z x k : sin (x + 2 * PI * IZR k) = sin x.
Proof.
  destruct (Z_lt_le_dec k 0) as [N|N].
  - rewrite <- (sin_period (x + 2 * PI * IZR k) (Z.to_nat (- k))). f_equal. rewrite INR_IZR_INZ, Z2Nat.id by lia. rewrite opp_IZR. ring.
  - rewrite <- (sin_period x (Z.to_nat k)). f_equal. rewrite INR_IZR_INZ, Z2Nat.id by lia. ring.
Qed.
Lemma nth_samples (g : nat -> R) n i x : nth_error (map g (seq 0 n)) i = Some x -> x = g i.
Proof.
  intros N. assert (L : (i < n)%nat) by (rewrite <- (seq_length n 0), <- (map_length g); apply nth_error_Some; congruence).
  rewrite (nth_error_nth' _ (g 0%nat)), map_nth, seq_nth in N by (rewrite ?map_length, ?seq_length; auto). injection N as <-. reflexivity.
Qed.
(** Samples a whole number of periods apart are equal. *)
Theorem C47_sine_periodic amp sr f ph n o o' out i j k x y : 0 < sr -> 0 < f -> sin_new amp sr f ph = Ok o -> osc_run sin_tick o n = Ok (o', out) ->
  f * (INR j - INR i) = sr * IZR k -> nth_error out i = Some x -> nth_error out j = Some y -> x = y.
Proof.
  intros Hs Hf E R H X Y. destruct (C47_sine_samples amp sr f ph n Hs Hf) as [o1 [o2 [E1 R1]]]. rewrite E in E1. injection E1 as <-. rewrite R in R1. injection R1 as -> ->.
  apply nth_samples in X, Y. subst x y. f_equal. replace (2 * PI * (f * INR j / sr) + ph) with (2 * PI * (f * INR i / sr) + ph + 2 * PI * IZR k); [symmetry; apply sin_period_Z|].
  replace (IZR k) with (f * (INR j - INR i) / sr) by (rewrite H; field; lra). field. lra.
Qed.

(** ** Square: the code returns minus the ideal square wave of its duty cycle. *)
Lemma square_new_ok amp sr f d : 0 < sr -> 0 < f -> 0 <= d <= 1 -> square_new amp sr f d = Ok (mkOsc amp 0 sr (/ sr) f (/ f) 0 (d * / f)).
Proof. intros. unfold square_new. rewrite new_ok by auto. cbn [bind]. unfold set_duty. destruct (Rle_dec 0 d); [|lra]. destruct (Rle_dec d 1); [|lra]. reflexivity. Qed.
Theorem C47_square_actual amp sr f d n : 0 < sr -> 0 < f -> 0 <= d <= 1 -> exists o o', square_new amp sr f d = Ok o /\
  osc_run square_tick o n = Ok (o', map (fun i => - (amp * ideal_square d (f * INR i / sr))) (seq 0 n)).
Proof.
  intros Hs Hf Hd. eexists. eexists. split; [apply square_new_ok; auto|]. rewrite (osc_run_values square_tick (fun t => - (amp * ideal_square d (f * t)))).
  - cbn [timestamp sampling_period]. f_equal. f_equal. apply map_ext. intros i. f_equal. f_equal. f_equal. field. lra.
  - simpl; lra.
  - simpl. left. apply Rinv_0_lt_compat; auto.
  - assert (If : 0 < / f) by (apply Rinv_0_lt_compat; auto).
    intros o' [t [Ht ->]]. unfold square_tick. cbn [timestamp set_timestamp inverse_frequency extra amplitude]. rewrite rfmod_cycle by auto. cbn [bind]. f_equal. f_equal.
    replace (t / / f) with (f * t) by (field; lra). unfold ideal_square. destruct (Rle_dec (d * / f) (/ f * cycle (f * t))), (Rlt_dec (cycle (f * t)) d); try ring; exfalso; nra.
Qed.
Theorem C47_square_refuted amp sr f d n : 0 < sr -> 0 < f -> 0 <= d <= 1 -> amp <> 0 -> exists o o' out, square_new amp sr f d = Ok o /\
  osc_run square_tick o n = Ok (o', out) /\ forall i x, nth_error out i = Some x -> x <> amp * ideal_square d (f * INR i / sr).
Proof.
  intros Hs Hf Hd Ha. destruct (C47_square_actual amp sr f d n Hs Hf Hd) as [o [o' [E R]]]. exists o, o'. eexists. split; auto. split; [exact R|].
  intros i x N. rewrite nth_error_map in N. destruct (nth_error (seq 0 n) i) as [j|] eqn:J; [|discriminate]. cbn [option_map] in N. injection N as <-.
  assert (j = i). { assert (i < n)%nat by (rewrite <- (seq_length n 0); apply nth_error_Some; congruence). rewrite (nth_error_nth' _ 0%nat) in J by (rewrite seq_length; auto). rewrite seq_nth in J by auto. injection J as <-. reflexivity. }
  subst j. unfold ideal_square. destruct (Rlt_dec (cycle (f * INR i / sr)) d); lra.
Qed.
Theorem C47_square_range_periodic amp sr f d n : 0 < sr -> 0 < f -> 0 <= d <= 1 -> exists o o' out, square_new amp sr f d = Ok o /\
  osc_run square_tick o n = Ok (o', out) /\ length out = n /\ (forall x, In x out -> x = amp \/ x = - amp) /\
  (forall i j k x y, f * (INR j - INR i) = sr * IZR k -> nth_error out i = Some x -> nth_error out j = Some y -> x = y).
Proof.
  intros Hs Hf Hd. destruct (C47_square_actual amp sr f d n Hs Hf Hd) as [o [o' [E R]]]. exists o, o'. eexists. split; auto. split; [exact R|]. split; [rewrite map_length, seq_length; auto|]. split.
  - intros x I. apply in_map_iff in I as [i [<- _]]. unfold ideal_square. destruct (Rlt_dec (cycle (f * INR i / sr)) d); [right|left]; ring.
  - intros i j k x y H X Y. rewrite nth_error_map in X, Y.
    assert (S : forall i z, nth_error (seq 0 n) i = Some z -> z = i). { clear. intros i z J. assert (i < n)%nat by (rewrite <- (seq_length n 0); apply nth_error_Some; congruence). rewrite (nth_error_nth' _ 0%nat) in J by (rewrite seq_length; auto). rewrite seq_nth in J by auto. injection J as <-. reflexivity. }
    destruct (nth_error (seq 0 n) i) as [i'|] eqn:I1; [|discriminate]. destruct (nth_error (seq 0 n) j) as [j'|] eqn:J1; [|discriminate]. apply S in I1, J1. subst i' j'. cbn [option_map] in X, Y. injection X as <-. injection Y as <-.
    unfold ideal_square. replace (f * INR j / sr) with (f * INR i / sr + IZR k); [rewrite cycle_Z; reflexivity|]. replace (IZR k) with (f * (INR j - INR i) / sr) by (rewrite H; field; lra). field. lra.
Qed.

(** ** Sawtooth and triangle *)
Lemma sawtooth_new_ok amp sr f w : 0 < sr -> 0 < f -> 0 <= w <= 1 -> sawtooth_new amp sr f w = Ok (mkOsc amp 0 sr (/ sr) f (/ f) 0 w).
Proof. intros. unfold sawtooth_new. rewrite new_ok by auto. cbn [bind]. unfold set_width. destruct (Rle_dec 0 w); [|lra]. destruct (Rle_dec w 1); [|lra]. reflexivity. Qed.
Lemma ideal_sawtooth_range w x : 0 <= w <= 1 -> -1 <= ideal_sawtooth w x <= 1.
Proof.
  intros Hw. unfold ideal_sawtooth. pose proof (cycle_bound x) as B. set (t := cycle x) in *. destruct (Rlt_dec t w).
  - assert (0 <= t / w <= 1). { split; [apply Rmult_le_pos; [lra|]; apply Rlt_le, Rinv_0_lt_compat; lra|]. apply Rmult_le_reg_r with w; [lra|]. unfold Rdiv. rewrite Rmult_assoc, Rinv_l by lra. lra. }
    replace (2 * t / w) with (2 * (t / w)) by (unfold Rdiv; ring). lra.
  - assert (0 <= (t - w) / (1 - w) <= 1). { split; [apply Rmult_le_pos; [lra|]; apply Rlt_le, Rinv_0_lt_compat; lra|]. apply Rmult_le_reg_r with (1 - w); [lra|]. unfold Rdiv. rewrite Rmult_assoc, Rinv_l by lra. lra. }
    replace (2 * (t - w) / (1 - w)) with (2 * ((t - w) / (1 - w))) by (unfold Rdiv; ring). lra.
Qed.
Lemma sawtooth_tick_value o : 0 <= extra o <= 1 -> 0 <= frequency o * timestamp o -> sawtooth_tick o = Ok (advance o, amplitude o * ideal_sawtooth (extra o) (frequency o * timestamp o)).
Proof.
  intros Hw Ht. unfold sawtooth_tick. rewrite rfmod_cycle by lra. cbn [bind]. replace (frequency o * timestamp o / 1) with (frequency o * timestamp o) by field. unfold ideal_sawtooth.
  rewrite Rmult_1_l. set (t := cycle (frequency o * timestamp o)). pose proof (cycle_bound (frequency o * timestamp o)) as B. fold t in B. destruct (Req_EM_T (extra o) 0) as [Z|NZ].
  - rewrite Z. destruct (Rle_dec 0 t); [|lra]. rewrite rdiv_ok by lra. cbn [bind]. destruct (Rlt_dec t 0); [lra|]. f_equal. f_equal. f_equal. field.
  - destruct (Rlt_dec t (extra o)) as [L|L].
    + rewrite rdiv_ok by auto. reflexivity.
    + destruct (Req_EM_T (extra o) 1); [lra|]. rewrite rdiv_ok by lra. cbn [bind]. f_equal. f_equal. f_equal. field. lra.
Qed.
Theorem C47_sawtooth_samples amp sr f w n : 0 < sr -> 0 < f -> 0 <= w <= 1 -> exists o o' out, sawtooth_new amp sr f w = Ok o /\
  osc_run sawtooth_tick o n = Ok (o', out) /\ out = map (fun i => amp * ideal_sawtooth w (f * INR i / sr)) (seq 0 n) /\
  (forall x, In x out -> Rabs x <= Rabs amp).
Proof.
  intros Hs Hf Hw. eexists. eexists. eexists. split; [apply sawtooth_new_ok; auto|]. rewrite (osc_run_values sawtooth_tick (fun t => amp * ideal_sawtooth w (f * t))).
  - cbn [timestamp sampling_period]. split; [reflexivity|]. split.
    + apply map_ext. intros i. f_equal. f_equal. field. lra.
    + intros x I. apply in_map_iff in I as [i [<- _]]. rewrite Rabs_mult. rewrite <- (Rmult_1_r (Rabs amp)) at 2. apply Rmult_le_compat_l; [apply Rabs_pos|]. apply Rabs_le. apply ideal_sawtooth_range; auto.
  - simpl; lra.
  - simpl. left. apply Rinv_0_lt_compat; auto.
  - intros o' [t [Ht ->]]. apply sawtooth_tick_value; cbn; auto. apply Rmult_le_pos; lra.
Qed.
(** A width outside [0, 1] stops at the assertion of the constructor, before any sample is produced. *)
Theorem C47_sawtooth_width amp sr f w : 0 < sr -> 0 < f -> (sawtooth_new amp sr f w = UB <-> ~ (0 <= w <= 1)).
Proof.
  intros Hs Hf. split.
  - intros U W. rewrite sawtooth_new_ok in U by auto. discriminate.
  - intros W. unfold sawtooth_new. rewrite new_ok by auto. cbn [bind]. unfold set_width. destruct (Rle_dec 0 w); [|reflexivity]. destruct (Rle_dec w 1); [exfalso; apply W; auto|reflexivity].
Qed.
Theorem C47_sawtooth_periodic amp sr f w n o o' out i j k x y : 0 < sr -> 0 < f -> 0 <= w <= 1 -> sawtooth_new amp sr f w = Ok o ->
  osc_run sawtooth_tick o n = Ok (o', out) -> f * (INR j - INR i) = sr * IZR k -> nth_error out i = Some x -> nth_error out j = Some y -> x = y.
Proof.
  intros Hs Hf Hw E R H X Y. destruct (C47_sawtooth_samples amp sr f w n Hs Hf Hw) as [o1 [o2 [l [E1 [R1 [L _]]]]]]. rewrite E in E1. injection E1 as <-. rewrite R in R1. injection R1 as -> ->. rewrite L in X, Y.
  apply nth_samples in X, Y. subst x y. f_equal. replace (f * INR j / sr) with (f * INR i / sr + IZR k); [unfold ideal_sawtooth; rewrite cycle_Z; reflexivity|].
  replace (IZR k) with (f * (INR j - INR i) / sr) by (rewrite H; field; lra). field. lra.
Qed.
Theorem C47_triangular_samples amp sr f n : 0 < sr -> 0 < f -> exists o o' out, triangular_new amp sr f = Ok o /\
  osc_run sawtooth_tick o n = Ok (o', out) /\ out = map (fun i => amp * (1 - 4 * Rabs (cycle (f * INR i / sr) - 1/2))) (seq 0 n) /\
  (forall x, In x out -> Rabs x <= Rabs amp).
Proof.
  intros Hs Hf. unfold triangular_new. destruct (C47_sawtooth_samples amp sr f (1/2) n Hs Hf ltac:(lra)) as [o [o' [out [A [B [C D]]]]]]. exists o, o', out. repeat split; auto.
  rewrite C. apply map_ext. intros i. f_equal. unfold ideal_sawtooth. set (t := cycle (f * INR i / sr)). destruct (Rlt_dec t (1/2)).
  - rewrite Rabs_left by lra. field.
  - rewrite Rabs_right by lra. field.
Qed.
(** Before time zero the sawtooth leaves its range: the truncated remainder is negative there. *)
Theorem C47_sawtooth_negative_time_refuted amp sr f w t : 0 < amp -> 0 < sr -> 0 < f -> 0 < w <= 1 -> -1 < f * t < 0 ->
  exists o o' x, sawtooth_new amp sr f w = Ok o /\ sawtooth_tick (set_timestamp o t) = Ok (o', x) /\ x < - amp.
Proof.
  intros Ha Hs Hf Hw Ht. eexists. eexists. eexists. split; [apply sawtooth_new_ok; lra|]. unfold sawtooth_tick. cbn [frequency set_timestamp timestamp extra amplitude].
  assert (E : rfmod (f * t) 1 = Ok (f * t)).
  { unfold rfmod. rewrite rdiv_ok by lra. cbn [bind]. f_equal. replace (f * t / 1) with (f * t) by field. unfold ctrunc. destruct (Rlt_dec (f * t) 0); [|lra].
    destruct (cceil_spec (f * t)) as [[k K] B]. rewrite K in *. assert (k = 0)%Z. { assert (A1 : IZR k < IZR 1) by lra. assert (A2 : IZR (-1) < IZR k) by lra. apply lt_IZR in A1, A2. lia. } subst k. ring. }
  rewrite E. clear E. cbn [bind]. destruct (Req_EM_T w 0) as [Z|_]; [exfalso; lra|]. destruct (Rlt_dec (f * t) w) as [_|Z]; [|exfalso; lra]. rewrite rdiv_ok by lra. cbn [bind]. split; [reflexivity|].
  assert (2 * (f * t) / w < 0) by (apply Rmult_lt_reg_r with w; [lra|]; unfold Rdiv; rewrite Rmult_assoc, Rinv_l by lra; lra). nra.
Qed.
Example C47_ex : 0 < 44100 /\ 0 < 440 /\ 0 <= 1/4 <= 1. Proof. lra. Qed.

(** ** C48: histories of a square oscillator *)
(** The duty cycle in force, the current frequency. *)
Fixpoint last_duty (d : R) (h : list osc_op) : R := match h with [] => d | OpDuty d' :: t => last_duty d' t | _ :: t => last_duty d t end.
Fixpoint last_freq (f : R) (h : list osc_op) : R := match h with [] => f | OpFrequency f' :: t => last_freq f' t | _ :: t => last_freq f t end.
(** Whatever was called before, the period is still that of the frequency given to the constructor
    and duty() is the configured duty cycle scaled by the ratio of the frequencies. *)
Theorem C48_frequency_actual amp sr f0 d0 h o o1 : 0 < f0 -> square_new amp sr f0 d0 = Ok o -> square_history o h = Ok o1 ->
  frequency o1 = last_freq f0 h /\ get_duty o1 = last_duty d0 h * (last_freq f0 h / f0) /\
  (0 <= timestamp o1 -> exists o2, square_tick o1 = Ok (o2, - (amplitude o1 * ideal_square (last_duty d0 h) (f0 * timestamp o1)))).
Proof.
  intros Hf E H.
  assert (I : inverse_frequency o = / f0 /\ extra o = d0 * / f0 /\ frequency o = f0).
  { unfold square_new, osc_new in E. destruct (ninv sr); try discriminate. cbn [bind] in E. unfold ninv in E. rewrite rdiv_ok in E by lra. cbn [bind] in E. unfold set_duty in E.
    destruct (Rle_dec 0 d0); try discriminate. destruct (Rle_dec d0 1); try discriminate. injection E as <-. cbn. unfold Rdiv. rewrite Rmult_1_l. auto. }
  clear E. destruct I as [I1 [I2 I3]].
  assert (G : forall f1, frequency o = f1 -> frequency o1 = last_freq f1 h /\ get_duty o1 = last_duty d0 h * (last_freq f1 h / f0) /\
    (0 <= timestamp o1 -> exists o2, square_tick o1 = Ok (o2, - (amplitude o1 * ideal_square (last_duty d0 h) (f0 * timestamp o1))))); [|exact (G f0 I3)].
  clear I3. intros f1 I3. revert o d0 f1 I1 I2 I3 H.
  induction h as [|c h IH]; intros o d0 f1 I1 I2 I3 H.
  - cbn [square_history] in H. injection H as <-. cbn [last_freq last_duty]. split; auto. split.
    + unfold get_duty. rewrite I2, I3. field. lra.
    + intros Ht. assert (If : 0 < / f0) by (apply Rinv_0_lt_compat; auto). exists (advance o). unfold square_tick. rewrite I1, I2. rewrite rfmod_cycle by auto. cbn [bind]. f_equal. f_equal.
      replace (timestamp o / / f0) with (f0 * timestamp o) by (field; lra). unfold ideal_square. destruct (Rle_dec (d0 * / f0) (/ f0 * cycle (f0 * timestamp o))), (Rlt_dec (cycle (f0 * timestamp o)) d0); try ring; exfalso; nra.
  - cbn [square_history] in H. destruct (square_step o c) as [o'| |] eqn:S; try discriminate. cbn [bind] in H.
    destruct c; cbn [square_step] in S; cbn [last_freq last_duty];
      try (injection S as <-; refine (IH _ _ _ _ _ _ H); [exact I1|exact I2|first [exact I3|reflexivity]]).
    + unfold set_sample_rate in S. destruct (ninv sr0); try discriminate. cbn [bind] in S. injection S as <-. refine (IH _ _ _ _ _ _ H); [exact I1|exact I2|exact I3].
    + unfold set_duty in S. destruct (Rle_dec 0 d); try discriminate. destruct (Rle_dec d 1); try discriminate. injection S as <-. refine (IH _ d f1 _ _ _ H); cbn; auto. rewrite I1. reflexivity.
    + unfold square_tick in S. destruct (rfmod (timestamp o) (inverse_frequency o)); try discriminate. cbn [bind fst] in S. injection S as <-. refine (IH _ _ _ _ _ _ H); [exact I1|exact I2|exact I3].
Qed.
(** A change of frequency changes the reported duty cycle and not the period. *)
Theorem C48_set_frequency_refuted amp sr f0 d f1 o : 0 < sr -> 0 < f0 -> 0 < d <= 1 -> f1 <> f0 -> square_new amp sr f0 d = Ok o ->
  get_duty o = d /\ get_duty (set_frequency o f1) <> d /\
  forall t, exists o2 o3 x, square_tick (set_timestamp o t) = Ok (o2, x) /\ square_tick (set_timestamp (set_frequency o f1) t) = Ok (o3, x).
Proof.
  intros Hs Hf Hd Hn E. rewrite square_new_ok in E by lra. injection E as <-. unfold get_duty. cbn. split; [field; lra|]. split.
  - intros Q. apply Hn. apply Rmult_eq_reg_l with (d * / f0); [rewrite Q; field; lra|]. apply Rmult_integral_contrapositive. split; [lra|apply Rinv_neq_0_compat; lra].
  - intros t. unfold square_tick. cbn [timestamp set_timestamp set_frequency inverse_frequency extra amplitude]. assert (If : 0 < / f0) by (apply Rinv_0_lt_compat; auto). unfold rfmod. rewrite rdiv_ok by lra. cbn [bind]. eauto.
Qed.
(** The sine and sawtooth generators use the new frequency. *)
Theorem C48_sine_sawtooth_frequency o f x : 0 <= extra o <= 1 -> 0 <= f * timestamp o ->
  sin_tick (set_frequency o f) = Ok (set_timestamp (set_frequency o f) (timestamp o + sampling_period o), sin (2 * PI * f * timestamp o + phase o) * amplitude o) /\
  (sawtooth_tick (set_frequency o f) = Ok (set_timestamp (set_frequency o f) (timestamp o + sampling_period o), x) <-> x = amplitude o * ideal_sawtooth (extra o) (f * timestamp o)).
Proof.
  intros Hw Ht. split; [reflexivity|]. rewrite sawtooth_tick_value by auto. cbn [amplitude extra frequency timestamp set_frequency]. split; [intros Q; injection Q as <-; reflexivity|intros ->; reflexivity].
Qed.

(** ** C114: settings take effect at the next sample and reset restarts the wave *)
(** Specification.  The value last given by the calls that [pick] selects, and the time of the next
    sample: zero at construction and after reset, moved by one period of the sample rate in force at
    every sample. *)
Definition last_set (pick : osc_op -> option R) (init : R) (h : list osc_op) : R :=
  fold_left (fun v c => match pick c with Some x => x | None => v end) h init.
Definition pick_amplitude c := match c with OpAmplitude a => Some a | _ => None end.
Definition pick_frequency c := match c with OpFrequency f => Some f | _ => None end.
Definition pick_phase c := match c with OpPhase p => Some p | _ => None end.
Definition pick_duty c := match c with OpDuty d => Some d | _ => None end.
Definition pick_rate c := match c with OpSampleRate s => Some s | _ => None end.
Fixpoint time_after (rate t : R) (h : list osc_op) : R :=
  match h with
  | [] => t
  | OpReset :: h => time_after rate 0 h
  | OpTimestamp t' :: h => time_after rate t' h
  | OpSampleRate r :: h => time_after r t h
  | OpTick :: h => time_after rate (t + 1 / rate) h
  | _ :: h => time_after rate t h
  end.
(** Calls the API allows: positive rates and frequencies, times from zero on, fractions within [0,1]. *)
Definition sensible (c : osc_op) : Prop :=
  match c with OpSampleRate r => 0 < r | OpFrequency f => 0 < f | OpTimestamp t => 0 <= t | OpDuty d => 0 <= d <= 1 | _ => True end.

(** The state after a history, for an oscillator whose ticks only advance the time. *)
Lemma wave_state tick set iv u : forall h o r d0,
  (forall o d, extra o = d * u -> 0 <= d <= 1 -> inverse_frequency o = iv -> 0 < frequency o -> 0 <= timestamp o -> exists x, tick o = Ok (advance o, x)) ->
  (forall o d, 0 <= d <= 1 -> inverse_frequency o = iv -> set o d = Ok (set_extra o (d * u))) -> Forall sensible h ->
  extra o = d0 * u -> 0 <= d0 <= 1 -> inverse_frequency o = iv -> 0 < frequency o -> 0 <= timestamp o -> 0 < r -> sample_rate o = r -> sampling_period o = 1 / r ->
  exists o1, wave_history tick set o h = Ok o1 /\ amplitude o1 = last_set pick_amplitude (amplitude o) h /\
    frequency o1 = last_set pick_frequency (frequency o) h /\ phase o1 = last_set pick_phase (phase o) h /\
    extra o1 = last_set pick_duty d0 h * u /\ timestamp o1 = time_after r (timestamp o) h /\
    sample_rate o1 = last_set pick_rate r h /\ sampling_period o1 = 1 / last_set pick_rate r h /\
    0 <= last_set pick_duty d0 h <= 1 /\ 0 < frequency o1 /\ 0 <= timestamp o1 /\ inverse_frequency o1 = iv /\ 0 < sample_rate o1.
Proof.
  intros h. induction h as [|c h IH]; intros o r d0 HT HS HF He Hd Hi Hf Ht Hr H1 H2.
  - exists o. cbn [wave_history last_set fold_left time_after]. repeat split; auto; lra.
  - inversion HF as [|? ? Sc HF']; subst. cbn [wave_history].
    destruct c; cbn [wave_step sensible] in *; cbn [bind].
    + exact (IH (set_frequency o f) (sample_rate o) d0 HT HS HF' He Hd eq_refl Sc Ht Hr eq_refl H2).
    + exact (IH (set_amplitude o a) (sample_rate o) d0 HT HS HF' He Hd eq_refl Hf Ht Hr eq_refl H2).
    + exact (IH (set_timestamp o t) (sample_rate o) d0 HT HS HF' He Hd eq_refl Hf Sc Hr eq_refl H2).
    + exact (IH (osc_reset o) (sample_rate o) d0 HT HS HF' He Hd eq_refl Hf (Rle_refl 0) Hr eq_refl H2).
    + unfold set_sample_rate, ninv. rewrite rdiv_ok by lra. cbn [bind].
      exact (IH (mkOsc (amplitude o) (timestamp o) sr (1 / sr) (frequency o) (inverse_frequency o) (phase o) (extra o)) sr d0 HT HS HF' He Hd eq_refl Hf Ht Sc eq_refl eq_refl).
    + rewrite HS by auto. cbn [bind]. exact (IH (set_extra o (d * u)) (sample_rate o) d HT HS HF' eq_refl Sc eq_refl Hf Ht Hr eq_refl H2).
    + exact (IH (set_phase o p) (sample_rate o) d0 HT HS HF' He Hd eq_refl Hf Ht Hr eq_refl H2).
    + destruct (HT o d0 He Hd eq_refl Hf Ht) as [x E]. rewrite E. cbn [bind fst].
      assert (P : 0 < 1 / sample_rate o) by (apply Rdiv_lt_0_compat; lra).
      assert (T : 0 <= timestamp (advance o)) by (unfold advance, set_timestamp; cbn [timestamp]; rewrite H2; lra).
      destruct (IH (advance o) (sample_rate o) d0 HT HS HF' He Hd eq_refl Hf T Hr eq_refl H2) as [o1 Q]. exists o1.
      change (timestamp (advance o)) with (timestamp o + sampling_period o) in Q. rewrite H2 in Q. exact Q.
Qed.
Lemma time_after_tick sr t h : time_after sr t (h ++ [OpTick]) = time_after sr t h + 1 / last_set pick_rate sr h.
Proof. revert sr t. induction h as [|c h IH]; intros sr t; [reflexivity|]. destruct c; cbn [app time_after]; rewrite IH; reflexivity. Qed.
Lemma time_after_reset sr t h : time_after sr t (h ++ [OpReset]) = 0.
Proof. revert sr t. induction h as [|c h IH]; intros sr t; [reflexivity|]. destruct c; cbn [app time_after]; auto. Qed.
Lemma last_set_reset pick v h : (pick OpReset = None) -> last_set pick v (h ++ [OpReset]) = last_set pick v h.
Proof. intros H. unfold last_set. rewrite fold_left_app. cbn [fold_left]. rewrite H. reflexivity. Qed.
(** Sine: whatever was called, the next sample is A sin(2 pi F T + P) of the settings in force. *)
Theorem C114_sine_history amp sr f ph h : 0 < sr -> 0 < f -> Forall sensible h -> (forall d, ~ In (OpDuty d) h) ->
  exists o o1 o2, sin_new amp sr f ph = Ok o /\ wave_history sin_tick (fun _ _ => UB) o h = Ok o1 /\
    amplitude o1 = last_set pick_amplitude amp h /\ frequency o1 = last_set pick_frequency f h /\ phase o1 = last_set pick_phase ph h /\
    sample_rate o1 = last_set pick_rate sr h /\ timestamp o1 = time_after sr 0 h /\
    sin_tick o1 = Ok (o2, last_set pick_amplitude amp h *
                          sin (2 * PI * last_set pick_frequency f h * time_after sr 0 h + last_set pick_phase ph h)) /\
    timestamp o2 = time_after sr 0 (h ++ [OpTick]).
Proof.
  intros Hs Hf HF HD. set (o := mkOsc amp 0 sr (/ sr) f (/ f) ph 0).
  assert (E0 : sin_new amp sr f ph = Ok o).
  { unfold sin_new, osc_new, ninv. rewrite !rdiv_ok by lra. cbn [bind]. unfold o. f_equal. f_equal; unfold Rdiv; ring. }
  assert (Same : forall h o, (forall d, ~ In (OpDuty d) h) -> wave_history sin_tick (fun _ _ => UB) o h = wave_history sin_tick (fun o d => Ok (set_extra o (d * 0))) o h).
  { clear. induction h as [|c h IH]; intros o H; [reflexivity|]. cbn [wave_history].
    assert (E : wave_step sin_tick (fun _ _ => UB) o c = wave_step sin_tick (fun o d => Ok (set_extra o (d * 0))) o c).
    { destruct c; try reflexivity. exfalso. apply (H d). left. reflexivity. }
    rewrite E. destruct (wave_step sin_tick (fun o d => Ok (set_extra o (d * 0))) o c); cbn [bind]; auto. apply IH. intros d D. apply (H d). right. auto. }
  destruct (wave_state sin_tick (fun o d => Ok (set_extra o (d * 0))) (/ f) 0 h o sr 0) as [o1 [W [A [F [P [_ [T [R [SP _]]]]]]]]]; auto;
    try (unfold o; cbn; unfold Rdiv; lra).
  { intros o' d' _ _ _ _ _. eexists. reflexivity. }
  exists o, o1, (advance o1). split; auto. split; [rewrite Same by auto; exact W|]. unfold o in A, F, P, T. cbn [amplitude frequency phase timestamp] in *.
  repeat (split; [assumption|]). split.
  - unfold sin_tick. rewrite A, F, P, T. f_equal. f_equal. ring.
  - unfold advance, set_timestamp. cbn [timestamp]. rewrite time_after_tick, T, SP. reflexivity.
Qed.
(** Sawtooth and triangle likewise; the width is the last one set. *)
Theorem C114_sawtooth_history amp sr f w h : 0 < sr -> 0 < f -> 0 <= w <= 1 -> Forall sensible h ->
  exists o o1 o2, sawtooth_new amp sr f w = Ok o /\ wave_history sawtooth_tick set_width o h = Ok o1 /\
    amplitude o1 = last_set pick_amplitude amp h /\ frequency o1 = last_set pick_frequency f h /\ phase o1 = last_set pick_phase 0 h /\
    sample_rate o1 = last_set pick_rate sr h /\ timestamp o1 = time_after sr 0 h /\
    sawtooth_tick o1 = Ok (o2, last_set pick_amplitude amp h *
                               ideal_sawtooth (last_set pick_duty w h) (last_set pick_frequency f h * time_after sr 0 h)).
Proof.
  intros Hs Hf Hw HF. set (o := mkOsc amp 0 sr (/ sr) f (/ f) 0 w).
  destruct (wave_state sawtooth_tick set_width (/ f) 1 h o sr w) as [o1 [W [A [F [P [X [T [R [SP [B1 [B2 [B3 _]]]]]]]]]]]]; auto;
    try (unfold o; cbn; unfold Rdiv; lra).
  { intros o' d Q A _ B C. rewrite Rmult_1_r in Q. eexists. apply sawtooth_tick_value; [rewrite Q; auto|]. apply Rmult_le_pos; lra. }
  { intros o' d D _. rewrite Rmult_1_r. unfold set_width. destruct (Rle_dec 0 d); [|lra]. destruct (Rle_dec d 1); [|lra]. reflexivity. }
  rewrite Rmult_1_r in X. exists o, o1, (advance o1). split; [apply sawtooth_new_ok; auto|]. split; auto.
  rewrite sawtooth_tick_value by (rewrite ?X; auto; apply Rmult_le_pos; lra). rewrite A, F, P, X, T. unfold o. cbn [amplitude frequency phase extra timestamp].
  repeat split; auto.
Qed.
(** Square: the amplitude, duty cycle and time are the ones in force; the frequency of the wave is
    still the constructor's (C48). *)
Theorem C114_square_history_actual amp sr f d h : 0 < sr -> 0 < f -> 0 <= d <= 1 -> Forall sensible h ->
  exists o o1 o2, square_new amp sr f d = Ok o /\ square_history o h = Ok o1 /\
    amplitude o1 = last_set pick_amplitude amp h /\ frequency o1 = last_set pick_frequency f h /\ phase o1 = last_set pick_phase 0 h /\
    sample_rate o1 = last_set pick_rate sr h /\ timestamp o1 = time_after sr 0 h /\
    square_tick o1 = Ok (o2, - (last_set pick_amplitude amp h * ideal_square (last_set pick_duty d h) (f * time_after sr 0 h))).
Proof.
  intros Hs Hf Hd HF. set (o := mkOsc amp 0 sr (/ sr) f (/ f) 0 (d * / f)). assert (If : 0 < / f) by (apply Rinv_0_lt_compat; auto).
  assert (V : forall o d, extra o = d * / f -> inverse_frequency o = / f -> 0 <= timestamp o ->
    square_tick o = Ok (advance o, - (amplitude o * ideal_square d (f * timestamp o)))).
  { clear - Hf If. intros o d E I T. unfold square_tick. rewrite I, E, rfmod_cycle by auto. cbn [bind]. f_equal. f_equal.
    replace (timestamp o / / f) with (f * timestamp o) by (field; lra). unfold ideal_square.
    destruct (Rle_dec (d * / f) (/ f * cycle (f * timestamp o))), (Rlt_dec (cycle (f * timestamp o)) d); try ring; exfalso; nra. }
  assert (H : forall h o, square_history o h = wave_history square_tick set_duty o h).
  { clear. induction h as [|c h IH]; intros o; [reflexivity|]. cbn [square_history wave_history].
    assert (E : square_step o c = wave_step square_tick set_duty o c) by (destruct c; reflexivity). rewrite E.
    destruct (wave_step square_tick set_duty o c); cbn [bind]; auto. }
  destruct (wave_state square_tick set_duty (/ f) (/ f) h o sr d) as [o1 [W [A [F [P [X [T [R [SP [B1 [B2 [B3 [B4 _]]]]]]]]]]]]]; auto;
    try (unfold o; cbn; unfold Rdiv; lra).
  { intros o' d' Q A B C D. eexists. apply (V o' d'); auto. }
  { intros o' d' D I. unfold set_duty. destruct (Rle_dec 0 d'); [|lra]. destruct (Rle_dec d' 1); [|lra]. rewrite I. reflexivity. }
  exists o, o1, (advance o1). split; [apply square_new_ok; auto|]. rewrite H. split; auto.
  rewrite (V o1 (last_set pick_duty d h)) by auto. rewrite A, F, P, T. unfold o. cbn [amplitude frequency phase extra timestamp].
  repeat split; auto.
Qed.
(** After reset an oscillator plays what a new one with the settings in force plays. *)
Theorem C114_sine_reset amp sr f ph h n : 0 < sr -> 0 < f -> Forall sensible h -> (forall d, ~ In (OpDuty d) h) ->
  exists o o1 o2, sin_new amp sr f ph = Ok o /\ wave_history sin_tick (fun _ _ => UB) o (h ++ [OpReset]) = Ok o1 /\
    osc_run sin_tick o1 n = Ok (o2, map (fun i => last_set pick_amplitude amp h *
       sin (2 * PI * (last_set pick_frequency f h * INR i / last_set pick_rate sr h) + last_set pick_phase ph h)) (seq 0 n)).
Proof.
  intros Hs Hf HF HD.
  destruct (C114_sine_history amp sr f ph (h ++ [OpReset])) as [o [o1 [o2 [E0 [W [A [F [P [R [T [V T2]]]]]]]]]]]; auto.
  { apply Forall_app. split; auto. constructor; cbn; auto. }
  { intros d D. apply in_app_or in D as [D|[D|[]]]; [apply (HD d D)|discriminate]. }
  rewrite !last_set_reset in * by reflexivity. rewrite time_after_reset in T. rewrite time_after_tick, time_after_reset, Rplus_0_l, last_set_reset in T2 by reflexivity.
  assert (PR : forall l r0, Forall sensible l -> 0 < r0 -> 0 < last_set pick_rate r0 l).
  { clear. induction l as [|c l IH]; intros r0 H H0; [exact H0|]. inversion H; subst. destruct c; cbn [sensible] in *; refine (IH _ _ _); auto. }
  pose proof (PR h sr HF Hs) as R0. unfold sin_tick in V. injection V as V1 V2. rewrite <- V1 in T2. unfold advance, set_timestamp in T2. cbn [timestamp] in T2. rewrite T, Rplus_0_l in T2.
  eexists o, o1, _. split; auto. split; auto.
  rewrite (osc_run_values sin_tick (fun t => amplitude o1 * sin (2 * PI * frequency o1 * t + phase o1))).
  - rewrite A, F, P, T, T2. f_equal. f_equal. apply map_ext. intros i. f_equal. f_equal. field. lra.
  - lra.
  - rewrite T2. apply Rlt_le, Rdiv_lt_0_compat; lra.
  - intros o' [t [Ht ->]]. unfold sin_tick. cbn [timestamp set_timestamp frequency phase amplitude]. f_equal. f_equal. ring.
Qed.
(** Samples at the old settings, then every setting changed, then reset. *)
Example C114_ex : Forall sensible [OpTick; OpFrequency 880; OpAmplitude (1/2); OpSampleRate 48000; OpPhase 1; OpTick; OpReset; OpTick] /\
  last_set pick_rate 44100 [OpTick; OpFrequency 880; OpAmplitude (1/2); OpSampleRate 48000; OpPhase 1; OpTick; OpReset; OpTick] = 48000 /\
  time_after 44100 0 [OpTick; OpFrequency 880; OpAmplitude (1/2); OpSampleRate 48000; OpPhase 1; OpTick; OpReset; OpTick] = 0 + 1 / 48000.
Proof. split; [repeat constructor; cbn; lra|]. split; reflexivity. Qed.
Print Assumptions C47_sine_samples.
Print Assumptions C47_sine_range.
Print Assumptions C47_sine_periodic.
Print Assumptions C47_square_actual.
Print Assumptions C47_square_refuted.
Print Assumptions C47_square_range_periodic.
Print Assumptions C47_sawtooth_samples.
Print Assumptions C47_sawtooth_width.
Print Assumptions C47_sawtooth_periodic.
Print Assumptions C47_triangular_samples.
Print Assumptions C47_sawtooth_negative_time_refuted.
Print Assumptions C48_frequency_actual.
Print Assumptions C48_set_frequency_refuted.
Print Assumptions C48_sine_sawtooth_frequency.
Print Assumptions C114_sine_history.
Print Assumptions C114_sawtooth_history.
Print Assumptions C114_square_history_actual.
Print Assumptions C114_sine_reset.
