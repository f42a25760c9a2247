(** Property theorems C05-C08 about the moving filters. *)
From Verif Require Import RealBase RealBaseProofs RingModel MovingModel SignalSpec MovingSpec MovingProofs.
From Verif Require Import FloatBase MovingFloatModel MovingFloatProofs.
Local Open Scope R_scope.

(** C05: output k of a new moving average of size n is the mean of the last n samples. *)
Theorem C05_moving_average_is_window_mean :
  forall (n : nat) (xs : list R), (0 < n)%nat ->
  exists m ys, transform ma_tick (m_new n) xs = Ok (m, ys) /\ length ys = length xs /\
    forall k, (k < length xs)%nat -> nth_error ys k = Some (window_mean (fun x => x) n xs k).
Proof. exact moving_average_lemma. Qed.
Print Assumptions C05_moving_average_is_window_mean.

(** C05: a window of size zero has no defined behaviour. *)
Theorem C05_zero_window_ub :
  forall x xs, transform ma_tick (m_new 0) (x :: xs) = UB /\ transform mr_tick (m_new 0) (x :: xs) = UB.
Proof. exact zero_window_ub. Qed.
Print Assumptions C05_zero_window_ub.

(** C05 in double precision is refuted: two finite samples followed by zeros leave a
    bias of -1/2 in every later output, for ever. *)
Theorem C05_moving_average_double_refuted :
  is_finite64 (f_of_Z (2 ^ 54)) = true /\
  forall k, exists m ys,
  transform maf_tick (mf_new 2) ([f_of_Z (2 ^ 54); f_of_Z 1; fzero; fzero] ++ repeat fzero k)
    = Ok (m, ys ++ repeat (fdiv (f_of_Z (-1)) (f_of_Z 2)) k) /\ length ys = 4%nat.
Proof. split; [reflexivity|exact ma_bias_lemma]. Qed.
Print Assumptions C05_moving_average_double_refuted.

(** C06: output k of a new moving RMS of size n is the RMS of the last n samples. *)
Theorem C06_moving_rms_is_window_rms :
  forall (n : nat) (xs : list R), (0 < n)%nat ->
  exists m ys, transform mr_tick (m_new n) xs = Ok (m, ys) /\ length ys = length xs /\
    forall k, (k < length xs)%nat -> nth_error ys k = Some (sqrt (window_mean (fun x => x * x) n xs k)).
Proof. exact moving_rms_lemma. Qed.
Print Assumptions C06_moving_rms_is_window_rms.

(** C06 in double precision is refuted: after the finite samples 2^27, 1, 0, 0 every
    later output for a silent input is NaN. *)
Theorem C06_moving_rms_double_refuted :
  is_finite64 (f_of_Z (2 ^ 27)) = true /\
  forall k, exists m ys,
  transform mrf_tick (mf_new 2) ([f_of_Z (2 ^ 27); f_of_Z 1; fzero; fzero] ++ repeat fzero k)
    = Ok (m, ys ++ repeat S754_nan k) /\ length ys = 4%nat.
Proof. split; [reflexivity|exact rms_nan_lemma]. Qed.
Print Assumptions C06_moving_rms_double_refuted.

(** C07 is refuted for every window of at least two samples: a new filter that is
    reset answers the sample 1 differently from a new filter. *)
Theorem C07_moving_average_reset_refuted :
  forall n, (2 <= n)%nat ->
  exists m1 o1 m2 o2, transform ma_tick (m_reset (m_new n)) [1] = Ok (m1, [o1]) /\
    transform ma_tick (m_new n) [1] = Ok (m2, [o2]) /\ o1 <> o2.
Proof. exact reset_differs. Qed.
Print Assumptions C07_moving_average_reset_refuted.

(** C07, RMS: a reset filter even answers a NaN. *)
Theorem C07_moving_rms_reset_refuted :
  forall n, (2 <= n)%nat -> transform mr_tick (m_reset (m_new n)) [1; 0; 0] = NonFinite.
Proof. exact rms_reset_nan. Qed.
Print Assumptions C07_moving_rms_reset_refuted.

(** C07, what really happens: every output after reset(), for every history. *)
Theorem C07_moving_average_after_reset :
  forall (n : nat) (xs ys : list R), (0 < n)%nat ->
  exists m os0 m' os, transform ma_tick (m_new n) xs = Ok (m, os0) /\
    transform ma_tick (m_reset m) ys = Ok (m', os) /\ length os = length ys /\
    forall k, (k < length ys)%nat ->
      nth_error os k = Some (after_reset n (rsum (recent n xs)) (stale_cell n xs) (firstn (k + 1) ys)).
Proof. exact moving_average_reset_lemma. Qed.
Print Assumptions C07_moving_average_after_reset.

(** C07, the same for resize(p). *)
Theorem C07_moving_average_after_resize :
  forall (n p : nat) (xs ys : list R), (0 < n)%nat -> (0 < p)%nat ->
  exists m os0 m' os, transform ma_tick (m_new n) xs = Ok (m, os0) /\
    transform ma_tick (m_resize m p) ys = Ok (m', os) /\ length os = length ys /\
    forall k, (k < length ys)%nat ->
      nth_error os k = Some (after_reset p (rsum (recent n xs)) (stale_cell n xs) (firstn (k + 1) ys)).
Proof. exact moving_average_resize_lemma. Qed.
Print Assumptions C07_moving_average_after_resize.

(** size() reports the configured window length, however the filter was used. *)
Lemma tick_capacity (m m' : mfilter) x y : (ma_tick m x = Ok (m', y) \/ mr_tick m x = Ok (m', y)) -> m_size m' = m_size m /\ length (cells (window m')) = length (cells (window m)).
Proof.
  assert (SL : forall (l : list R) i v l', store l i v = Ok l' -> length l' = length l).
  { induction l as [|a l IH]; intros i v l' E; [discriminate|]. destruct i as [|i]; cbn [store] in E; [injection E as <-; reflexivity|].
    destruct (store l i v) as [t| |] eqn:S; cbn in E; try discriminate. injection E as <-. cbn [length]. f_equal. apply (IH i v t S). }
  assert (P : forall (r r' : ring R) v, push_back r v = Ok r' -> capacity r' = capacity r /\ length (cells r') = length (cells r)).
  { intros r r' v E. unfold push_back, increment_front_and_back, increment_back, set_back_, normalize in E. destruct (full r); cbn [bind] in E.
    - destruct (rcap r =? 0); cbn [bind rcap rfront rsize cells] in E; [discriminate|]. destruct (rcap r =? 0); cbn [bind rcap rfront rsize cells] in E; [discriminate|].
      destruct (store _ _ _) as [cs| |] eqn:SS; cbn [bind] in E; try discriminate. injection E as <-. split; [reflexivity|]. apply (SL _ _ _ _ SS).
    - cbn [bind rcap rfront rsize cells] in E. destruct (rcap r =? 0); cbn [bind rcap rfront rsize cells] in E; [discriminate|].
      destruct (store _ _ _) as [cs| |] eqn:SS; cbn [bind] in E; try discriminate. injection E as <-. split; [reflexivity|]. apply (SL _ _ _ _ SS). }
  unfold m_size. intros [E|E]; unfold ma_tick, mr_tick in E;
    (destruct (front (window m)); cbn [bind] in E; try discriminate);
    match type of E with context [push_back ?a ?b] => destruct (push_back a b) as [w| |] eqn:W end; cbn [bind] in E; try discriminate;
    repeat match type of E with bind ?e _ = _ => destruct e; cbn [bind] in E; try discriminate end; injection E as <- _; cbn [window]; eapply P; eauto.
Qed.
Theorem C07_size :
  forall (n : nat) (xs : list R) m ys, (transform ma_tick (m_new n) xs = Ok (m, ys) \/ transform mr_tick (m_new n) xs = Ok (m, ys)) ->
  m_size m = n /\ m_size (m_reset m) = n /\ forall p, m_size (m_resize m p) = p.
Proof.
  intros n xs m ys H.
  assert (G : forall (tick : mfilter -> R -> res (mfilter * R)) m0, (forall a x b y, tick a x = Ok (b, y) -> m_size b = m_size a /\ length (cells (window b)) = length (cells (window a))) -> forall xs ys, transform tick m0 xs = Ok (m, ys) -> m_size m = m_size m0 /\ length (cells (window m)) = length (cells (window m0))).
  { clear. intros tick m0 T xs. revert m0. induction xs as [|x xs IH]; intros m0 ys E; cbn [transform] in E; [injection E as <- _; auto|].
    destruct (tick m0 x) as [[b y]| |] eqn:K; cbn [bind fst snd] in E; try discriminate.
    destruct (transform tick b xs) as [[c l]| |] eqn:L; cbn [bind fst snd] in E; try discriminate. injection E as <- _.
    destruct (IH b l L) as [I1 I2]. destruct (T m0 x b y K) as [T1 T2]. split; congruence. }
  assert (E : m_size m = n /\ length (cells (window m)) = n).
  { destruct H as [H|H]; apply G in H; try (intros a x b y K; apply (tick_capacity a b x y); auto);
      (destruct H as [H1 H2]; split; [exact H1|rewrite H2; apply repeat_length]). }
  destruct E as [E1 E2]. split; [exact E1|]. split; [exact E2|]. intros p. reflexivity.
Qed.
Print Assumptions C07_size.

(** C08: the moving median outputs 0 whatever its input... *)
Theorem C08_moving_median_is_always_zero :
  forall (n : nat) (xs : list R), (0 < n)%nat ->
  exists m, transform mmed_tick (m_new n) xs = Ok (m, repeat 0 (length xs)).
Proof. exact moving_median_lemma. Qed.
Print Assumptions C08_moving_median_is_always_zero.

(** ... so it is not the median of the window. *)
Theorem C08_moving_median_refuted :
  exists m, transform mmed_tick (m_new 3) [5; 6; 7] = Ok (m, [0; 0; 0]) /\
    is_median 6 [5; 6; 7] /\ ~ is_median 0 [5; 6; 7].
Proof.
  destruct (moving_median_lemma 3 [5; 6; 7] ltac:(lia)) as [m E]. exists m. split; [exact E|].
  split; [|intros [[H|[H|[H|[]]]] _]; lra].
  unfold is_median. cbn [In filter length].
  repeat match goal with |- context [Rlt_dec ?a ?b] => destruct (Rlt_dec a b); try lra end.
  simpl. repeat split; auto.
Qed.
Print Assumptions C08_moving_median_refuted.

(** Non-vacuity: the window of 2 over 3, 4, 5 has means 3/2, 7/2, 9/2. *)
Example window_mean_demo : map (window_mean (fun x => x) 2 [3; 4; 5]) [0; 1; 2]%nat = [3 / 2; 7 / 2; 9 / 2].
Proof. unfold window_mean, past; cbn [map sumf Nat.leb Nat.sub nth INR]. repeat f_equal; lra. Qed.
Example after_reset_demo :
  map (fun k => after_reset 2 (rsum (recent 2 [1; 2; 3])) (stale_cell 2 [1; 2; 3]) (firstn (k + 1) [4; 4; 4])) [0; 1; 2]%nat
  = [6; 3; 3].
Proof.
  unfold after_reset, recent, stale_cell; cbn -[INR Rplus Rminus Rmult Rdiv].
  unfold INR. repeat f_equal; lra.
Qed.
