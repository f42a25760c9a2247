From Verif Require Import Base BaseProofs FloatBase RingModel RingProofs MovingModel MovingProofs MovingFloatModel.

Definition drift_state (m : mfilterf) : Prop :=
  repr (windowf m) [fzero; fzero] /\ rcap (windowf m) = 2 /\ accumulatedf m = f_of_Z (-1).

Lemma drift_push m : drift_state m ->
  exists w, push_back (windowf m) fzero = Ok w /\ front (windowf m) = Ok fzero /\ size w = 2 /\
    drift_state (mkMF w (f_of_Z (-1))).
Proof.
  intros [HR [HC HA]].
  destruct (push_back_repr _ _ fzero HR ltac:(lia)) as [w [E [Ec Rw]]].
  rewrite HC in Rw. simpl in Rw.
  exists w. split; [exact E|]. split; [apply (front_repr _ _ fzero [fzero] HR eq_refl)|].
  split; [destruct Rw as [_ [H _]]; simpl in H; unfold size; lia|].
  split; [exact Rw|]. split; [simpl; lia|reflexivity].
Qed.

Lemma rms_drift k : forall m, drift_state m ->
  exists m', transform mrf_tick m (repeat fzero k) = Ok (m', repeat S754_nan k).
Proof.
  induction k as [|k IH]; intros m H; [exists m; reflexivity|].
  destruct (drift_push m H) as [w [E [F [S D]]]]. destruct H as [_ [_ HA]].
  destruct (IH _ D) as [m' E'].
  exists m'. cbn [repeat transform]. unfold mrf_tick at 1.
  change (fmul fzero fzero) with fzero. rewrite F. cbn [bind]. rewrite E. cbn [bind].
  rewrite HA, S. change (fadd (fsub (f_of_Z (-1)) fzero) fzero) with (f_of_Z (-1)).
  change (fsqrt (fdiv (f_of_Z (-1)) (f_of_nat 2))) with S754_nan.
  cbn [fst snd bind]. rewrite E'. reflexivity.
Qed.

Lemma ma_drift k : forall m, drift_state m ->
  exists m', transform maf_tick m (repeat fzero k) = Ok (m', repeat (fdiv (f_of_Z (-1)) (f_of_Z 2)) k).
Proof.
  induction k as [|k IH]; intros m H; [exists m; reflexivity|].
  destruct (drift_push m H) as [w [E [F [S D]]]]. destruct H as [_ [_ HA]].
  destruct (IH _ D) as [m' E'].
  exists m'. cbn [repeat transform]. unfold maf_tick at 1.
  rewrite F. cbn [bind]. rewrite E. cbn [bind].
  rewrite HA, S. change (fadd (fsub (f_of_Z (-1)) fzero) fzero) with (f_of_Z (-1)).
  cbn [fst snd bind]. rewrite E'. reflexivity.
Qed.

Lemma filled2 (r : ring spec_float) : rcap r = 2 -> rsize r = 2 -> cells r = [fzero; fzero] -> rfront r < 2 ->
  repr r [fzero; fzero].
Proof.
  intros H1 H2 H3 H4. unfold repr, wf. rewrite H1, H2, H3; simpl. repeat split; try lia.
  intros i Hi. destruct (rfront r) as [|[|]]; [| |lia]; (destruct i as [|[|]]; [| |lia]); reflexivity.
Qed.

Lemma rms_nan_lemma k :
  exists m ys, transform mrf_tick (mf_new 2) ([f_of_Z (2 ^ 27); f_of_Z 1; fzero; fzero] ++ repeat fzero k)
    = Ok (m, ys ++ repeat S754_nan k) /\ length ys = 4.
Proof.
  rewrite transform_app.
  set (p := transform mrf_tick (mf_new 2) [f_of_Z (2 ^ 27); f_of_Z 1; fzero; fzero]).
  vm_compute in p. subst p. cbn [bind fst snd].
  edestruct (rms_drift k) as [m' E']; [|rewrite E'; cbn [bind fst snd]; eexists; eexists; split; reflexivity].
  split; [apply filled2; simpl; (reflexivity || lia)|]. split; reflexivity.
Qed.

Lemma ma_bias_lemma k :
  exists m ys, transform maf_tick (mf_new 2) ([f_of_Z (2 ^ 54); f_of_Z 1; fzero; fzero] ++ repeat fzero k)
    = Ok (m, ys ++ repeat (fdiv (f_of_Z (-1)) (f_of_Z 2)) k) /\ length ys = 4.
Proof.
  rewrite transform_app.
  set (p := transform maf_tick (mf_new 2) [f_of_Z (2 ^ 54); f_of_Z 1; fzero; fzero]).
  vm_compute in p. subst p. cbn [bind fst snd].
  edestruct (ma_drift k) as [m' E']; [|rewrite E'; cbn [bind fst snd]; eexists; eexists; split; reflexivity].
  split; [apply filled2; simpl; (reflexivity || lia)|]. split; reflexivity.
Qed.
