(** The moving filters in IEEE formats. *)
From Coq Require Import ZArith Reals List Bool Lia Lra Psatz.
From Flocq Require Import Core BinarySingleNaN.
From Verif Require Import Base RingModel RingProofs MovingModel MovingSpec MovingProofs RealBase FloatModel FloatFiltersModel FloatSpec FloatProofs FloatProps FloatOrderProps FloatEnergyProps FloatFilterProps.
Import ListNotations.
Local Open Scope R_scope.

Section Format.
Context (prec emax : Z) {Hprec : Prec_gt_0 prec} {Hmax : Prec_lt_emax prec emax}.
Notation fl := (binary_float prec emax).
Notation rnd := (round radix2 (FLT_exp (3 - emax - prec) prec) ZnearestE).
Notation fmt := (generic_format radix2 (FLT_exp (3 - emax - prec) prec)).
Notation val := (@B2R prec emax).
Notation u := (roundoff prec).
Notation zero := (fzero prec emax).
Notation add := (fadd prec emax).
Notation sub := (fsub prec emax).
Notation sqr x := (fmul prec emax x x).

(** The accumulator and the window after each sample. *)
Definition advance (s : fl * list fl) (x : fl) : fl * list fl := (add (sub (fst s) (hd zero (snd s))) x, tl (snd s) ++ [x]).
Definition start (n : nat) : fl * list fl := (zero, repeat zero n).
Definition holds (n : nat) (m : fmoving prec emax) (s : fl * list fl) : Prop :=
  repr (fwindow prec emax m) (snd s) /\ length (snd s) = n /\ rcap (fwindow prec emax m) = n /\ faccumulated prec emax m = fst s.
Lemma holds_new n : holds n (fm_new prec emax n) (start n).
Proof. unfold holds, fm_new, start. cbn [fwindow faccumulated fst snd]. rewrite repeat_length. repeat split; auto; apply repr_filled. Qed.
Lemma tick_holds n m s x : (0 < n)%nat -> holds n m s ->
  exists w, front (fwindow prec emax m) = Ok (hd zero (snd s)) /\ push_back (fwindow prec emax m) x = Ok w /\ size w = n /\
    holds n (mkFm prec emax w (fst (advance s x))) (advance s x).
Proof.
  intros Hn [HR [HL [HC HA]]]. destruct s as [a l]. cbn [fst snd] in *. destruct l as [|h l]; [cbn in HL; lia|].
  destruct (push_back_repr _ _ x HR ltac:(lia)) as [w [E [Ec Rw]]]. rewrite HL, HC, Nat.ltb_irrefl in Rw. cbn [tl] in Rw.
  assert (LS : length (l ++ [x]) = n) by (rewrite app_length; cbn in *; lia).
  exists w. split; [exact (front_repr _ _ h l HR eq_refl)|]. split; [exact E|]. split; [destruct Rw as [_ [H _]]; unfold size; lia|].
  unfold holds, advance. cbn [fwindow faccumulated fst snd tl]. repeat split; auto; try lia; apply Rw.
Qed.
Lemma average_trace n xs : (0 < n)%nat -> exists m ys, transform (fma_tick prec emax) (fm_new prec emax n) xs = Ok (m, ys) /\ length ys = length xs /\
  forall k, (k < length xs)%nat -> nth_error ys k = Some (fdiv prec emax (fst (fold_left advance (firstn (k + 1) xs) (start n))) (of_nat prec emax n)).
Proof.
  intros Hn. destruct (transform_trace (fma_tick prec emax) (holds n) advance (fun s => fdiv prec emax (fst s) (of_nat prec emax n))) with (xs := xs) (s := fm_new prec emax n) (l := start n) as [m [ys [E [L [_ N]]]]].
  - intros m s x H. destruct (tick_holds n m s x Hn H) as [w [F [P [S Q]]]]. unfold fma_tick. rewrite F. cbn [bind]. rewrite P. cbn [bind]. rewrite S.
    destruct H as [_ [_ [_ HA]]]. rewrite HA. eexists. split; [reflexivity|exact Q].
  - apply holds_new.
  - exists m, ys. auto.
Qed.
Lemma rms_trace n xs : (0 < n)%nat -> exists m ys, transform (fmr_tick prec emax) (fm_new prec emax n) xs = Ok (m, ys) /\ length ys = length xs /\
  forall k, (k < length xs)%nat -> nth_error ys k = Some (fsqrt prec emax (fdiv prec emax (fst (fold_left advance (map (fun x => sqr x) (firstn (k + 1) xs)) (start n))) (of_nat prec emax n))).
Proof.
  intros Hn. destruct (transform_trace (fmr_tick prec emax) (holds n) (fun s x => advance s (sqr x)) (fun s => fsqrt prec emax (fdiv prec emax (fst s) (of_nat prec emax n)))) with (xs := xs) (s := fm_new prec emax n) (l := start n) as [m [ys [E [L [_ N]]]]].
  - intros m s x H. destruct (tick_holds n m s (sqr x) Hn H) as [w [F [P [S Q]]]]. unfold fmr_tick. rewrite F. cbn [bind]. rewrite P. cbn [bind]. rewrite S.
    destruct H as [_ [_ [_ HA]]]. rewrite HA. eexists. split; [reflexivity|exact Q].
  - apply holds_new.
  - exists m, ys. split; [exact E|]. split; [exact L|]. intros k K. rewrite (N k K). f_equal. f_equal. f_equal. f_equal.
    generalize (start n). induction (firstn (k + 1) xs) as [|x l IH]; intros s; [reflexivity|]. cbn [map fold_left]. apply IH.
Qed.

(** The window as real numbers. *)
Lemma window_vals xs : forall s, snd (fold_left advance xs s) = fold_left (fun l x => tl l ++ [x]) xs (snd s).
Proof. induction xs as [|x xs IH]; intros s; [reflexivity|]. cbn [fold_left]. rewrite IH. reflexivity. Qed.
Lemma window_map xs : forall l, map val (fold_left (fun l x => tl l ++ [x]) xs l) = fold_left MovingProofs.shift (map val xs) (map val l).
Proof. induction xs as [|x xs IH]; intros l; [reflexivity|]. cbn [fold_left map]. rewrite IH. f_equal. unfold MovingProofs.shift. rewrite map_app. destruct l; reflexivity. Qed.
Lemma total_rsum (l : list fl) : total l = rsum (map val l).
Proof. induction l as [|x l IH]; [reflexivity|]. unfold total in *. cbn. rewrite IH. reflexivity. Qed.
Lemma window_total n xs k : (0 < n)%nat -> (k < length xs)%nat ->
  total (snd (fold_left advance (firstn (k + 1) xs) (start n))) = window_mean (fun x => x) n (map val xs) k * INR n.
Proof.
  intros Hn Hk. rewrite total_rsum, window_vals, window_map. cbn [start snd]. unfold start. cbn [snd].
  assert (E : map val (repeat zero n) = repeat 0 n) by (clear; induction n as [|n IH]; [reflexivity|]; cbn; rewrite IH; reflexivity). rewrite E.
  rewrite <- firstn_map. unfold window_mean. rewrite <- (window_sum_past (fun x => x)) by (auto; rewrite map_length; auto). rewrite map_id. field. apply not_0_INR. lia.
Qed.

(** Bounded samples: the accumulator drifts from the exact sum of the window. *)
Section Drift.
Variables (n : nat) (M : R).
Hypotheses (Hn : (0 < n)%nat) (HM : 0 <= M).
Notation N := (INR n * M).
Definition small (l : list fl) : Prop := Forall (fun x => finite x /\ Rabs (val x) <= M) l.
Lemma total_small l : small l -> Rabs (total l) <= INR (length l) * M.
Proof.
  induction 1 as [|x l [_ B] H IH]; [cbn; rewrite Rabs_R0; lra|]. cbn [length]. rewrite S_INR. unfold total in *. cbn [map fold_right]. eapply Rle_trans; [apply Rabs_triang|]. lra.
Qed.
Lemma drift xs : small xs -> (1 + u) ^ (2 * length xs) * N < bpow radix2 emax ->
  let s := fold_left advance xs (start n) in
  finite (fst s) /\ small (snd s) /\ length (snd s) = n /\ Rabs (val (fst s) - total (snd s)) <= ((1 + u) ^ (2 * length xs) - 1) * N.
Proof.
  pose proof (roundoff_pos prec) as U. assert (PN : 0 <= N) by (apply Rmult_le_pos; [apply pos_INR|exact HM]).
  induction xs as [|x xs IH] using rev_ind; intros Hs HB.
  - cbn [fold_left length]. change ((1 + u) ^ (2 * 0)) with 1. unfold start. cbn [fst snd]. split; [reflexivity|]. split; [apply Forall_forall; intros y Y; apply repeat_spec in Y; subst; split; [reflexivity|]; change (val zero) with 0; rewrite Rabs_R0; lra|].
    split; [apply repeat_length|]. assert (E : total (repeat zero n) = 0) by (clear; induction n as [|k IH]; [reflexivity|]; unfold total in *; cbn; rewrite IH; lra). rewrite E. change (val zero) with 0. rewrite Rminus_0_r, Rabs_R0. lra.
  - apply Forall_app in Hs. destruct Hs as [Hs Hx]. inversion Hx as [|? ? [Fx Bx] _]; subst. rewrite app_length in *. cbn [length] in *.
    replace (2 * (length xs + 1))%nat with (S (S (2 * length xs))) in * by lia. cbn [pow] in *. set (q := (1 + u) ^ (2 * length xs)) in *.
    assert (Q1 : 1 <= q) by (apply (pow_ge_1 prec)). assert (QN : 0 <= q * N) by (apply Rmult_le_pos; lra).
    assert (K1 : q * N <= (1 + u) * (q * N)) by nra. assert (K2 : (1 + u) * (q * N) <= (1 + u) * ((1 + u) * (q * N))) by (apply Rmult_le_compat_l; lra).
    assert (HB' : (1 + u) * ((1 + u) * (q * N)) < bpow radix2 emax) by (replace ((1 + u) * ((1 + u) * (q * N))) with ((1 + u) * ((1 + u) * q) * N) by ring; exact HB).
    destruct (IH Hs ltac:(lra)) as [Fa [Sl [Ll D]]]. clear IH. rewrite fold_left_app. cbn [fold_left]. destruct (fold_left advance xs (start n)) as [a l]. cbn [fst snd] in *. cbv zeta.
    destruct l as [|h l]; [cbn in Ll; lia|]. unfold advance. cbn [fst snd hd tl]. inversion Sl as [|? ? [Fh Bh] Sl']; subst.
    pose proof (total_small l Sl') as TL. assert (TE : total (h :: l) = val h + total l) by reflexivity. rewrite TE in D.
    assert (TX : small (l ++ [x])) by (apply Forall_app; split; auto). assert (LX : length (l ++ [x]) = length (h :: l)) by (rewrite app_length; cbn; lia).
    pose proof (total_small _ TX) as TLX. rewrite LX in TLX. rewrite total_app in TLX |- *.
    assert (TL' : Rabs (total l) <= INR (length (h :: l)) * M). { eapply Rle_trans; [exact TL|]. apply Rmult_le_compat_r; auto. apply le_INR. cbn. lia. }
    set (NN := INR (length (h :: l)) * M) in *.
    destruct (sub_ok prec emax a h (q * NN) Fa Fh) as [F1 [E1 _]]. { replace (val a - val h) with ((val a - (val h + total l)) + total l) by ring. eapply Rle_trans; [apply Rabs_triang|]. lra. } { lra. }
    assert (D1 : Rabs (val (sub a h) - total l) <= (1 + u) * (q * NN) - NN).
    { replace (val (sub a h) - total l) with ((val (sub a h) - (val a - val h)) + (val a - (val h + total l))) by ring. eapply Rle_trans; [apply Rabs_triang|]. lra. }
    destruct (add_ok prec emax (sub a h) x ((1 + u) * (q * NN)) F1 Fx) as [F2 [E2 _]]. { replace (val (sub a h) + val x) with ((val (sub a h) - total l) + (total l + val x)) by ring. eapply Rle_trans; [apply Rabs_triang|]. lra. } { lra. }
    split; [exact F2|]. split; [exact TX|]. split; [exact LX|].
    replace (val (add (sub a h) x) - (total l + val x)) with ((val (add (sub a h) x) - (val (sub a h) + val x)) + (val (sub a h) - total l)) by ring. eapply Rle_trans; [apply Rabs_triang|]. 
    replace (((1 + u) * ((1 + u) * q) - 1) * NN) with (u * ((1 + u) * (q * NN)) + ((1 + u) * (q * NN) - NN)) by ring. lra.
Qed.
End Drift.

(** C125: in a new moving average of n samples, fed with samples of magnitude up to M, the k-th output is
    off the mean of the last n samples by at most ((1+u)^(2k+3) - 1) M: the drift is at most linear in the
    number of samples seen, not in the size of the window. *)
Theorem C125_average_drift n xs M : (0 < n)%nat -> (Z.of_nat n <= 2 ^ prec)%Z -> 0 <= M -> Forall (fun x => finite x /\ Rabs (val x) <= M) xs ->
  (1 + u) ^ (2 * length xs) * (INR n * M) < IZR (2 ^ emax) ->
  exists m ys, transform (fma_tick prec emax) (fm_new prec emax n) xs = Ok (m, ys) /\ length ys = length xs /\
  forall k, (k < length xs)%nat -> exists y, nth_error ys k = Some y /\ finite y /\
    Rabs (val y - window_mean (fun x => x) n (map val xs) k) <= ((1 + u) ^ (2 * k + 3) - 1) * M + smallest prec emax / 2.
Proof.
  intros Hn Hp HM Hx HB.
  assert (PE : IZR (2 ^ emax) = bpow radix2 emax).
  { apply (IZR_Zpower radix2). pose proof Hprec as P. pose proof Hmax as X. unfold Prec_gt_0 in P. unfold Prec_lt_emax in X. lia. }
  rewrite PE in HB. pose proof (roundoff_pos prec) as U. assert (PN : 0 < INR n) by (apply lt_0_INR; auto).
  destruct (average_trace n xs Hn) as [m [ys [E [L NT]]]]. exists m, ys. split; [exact E|]. split; [exact L|]. intros k K. eexists. split; [apply NT; exact K|].
  assert (LF : length (firstn (k + 1) xs) = (k + 1)%nat) by (rewrite firstn_length; lia).
  assert (HF : small M (firstn (k + 1) xs)) by (rewrite <- (firstn_skipn (k + 1) xs) in Hx; apply Forall_app in Hx; apply Hx).
  assert (PK : (1 + u) ^ (2 * length (firstn (k + 1) xs)) * (INR n * M) < bpow radix2 emax).
  { eapply Rle_lt_trans; [|exact HB]. apply Rmult_le_compat_r; [apply Rmult_le_pos; lra|]. apply Rle_pow; [lra|]. rewrite LF. lia. }
  destruct (drift n M Hn HM _ HF PK) as [Fa [Sl [Ll D]]]. rewrite LF in *. rewrite (window_total n xs k Hn K) in D.
  pose proof (total_small M _ Sl) as TS. rewrite Ll, (window_total n xs k Hn K) in TS. set (a := fst (fold_left advance (firstn (k + 1) xs) (start n))) in *. set (w := window_mean (fun x => x) n (map val xs) k) in *.
  replace (2 * k + 3)%nat with (S (2 * (k + 1))) by lia. cbn [pow]. set (q := (1 + u) ^ (2 * (k + 1))) in *. assert (Q1 : 1 <= q) by (apply (pow_ge_1 prec)).
  destruct (of_nat_exact prec emax n Hp) as [Fn Vn].
  assert (DA : Rabs (val a / INR n - w) <= (q - 1) * M).
  { replace (val a / INR n - w) with ((val a - w * INR n) / INR n) by (field; lra). unfold Rdiv. rewrite Rabs_mult, (Rabs_right (/ INR n)) by (left; apply Rinv_0_lt_compat; auto).
    apply (Rmult_le_reg_r (INR n)); auto. rewrite Rmult_assoc, Rinv_l by lra. lra. }
  assert (W : Rabs w <= M). { rewrite Rabs_mult, (Rabs_right (INR n)) in TS by lra. apply (Rmult_le_reg_r (INR n)); auto. lra. }
  assert (QA : Rabs (val a / INR n) <= q * M). { replace (val a / INR n) with ((val a / INR n - w) + w) by ring. eapply Rle_trans; [apply Rabs_triang|]. lra. }
  pose proof (rnd_err prec emax (val a / INR n)) as RE. rewrite <- (roundoff_u prec), <- (smallest_tiny prec emax) in RE.
  assert (UQ : u * Rabs (val a / INR n) <= u * (q * M)) by (apply Rmult_le_compat_l; lra).
  assert (FIN : finite (fdiv prec emax a (of_nat prec emax n)) /\ val (fdiv prec emax a (of_nat prec emax n)) = rnd (val a / INR n)).
  { destruct (div_cases prec emax a (of_nat prec emax n) Fa ltac:(rewrite Vn; lra)) as [[_ [V [F _]]]|[O _]]; [rewrite Vn in V; auto|rewrite Vn in O; exfalso].
    assert (LE : Rabs (val a / INR n) <= Rabs (val a)).
    { unfold Rdiv. rewrite Rabs_mult, (Rabs_right (/ INR n)) by (left; apply Rinv_0_lt_compat; auto). rewrite <- (Rmult_1_r (Rabs (val a))) at 2. apply Rmult_le_compat_l; [apply Rabs_pos|]. rewrite <- Rinv_1. apply Rinv_le_contravar; [lra|]. change 1 with (INR 1). apply le_INR. lia. }
    assert (RL : Rabs (rnd (val a / INR n)) <= Rabs (val a)).
    { apply Rabs_le_inv in LE. apply Rabs_le. split.
      - rewrite <- (rnd_id prec emax (- Rabs (val a))); [apply (rnd_le prec emax); lra|]. apply generic_format_opp, generic_format_abs, (fmt_val prec emax).
      - rewrite <- (rnd_id prec emax (Rabs (val a))); [apply (rnd_le prec emax); lra|]. apply generic_format_abs, (fmt_val prec emax). }
    apply (Rlt_irrefl (bpow radix2 emax)). eapply Rle_lt_trans; [exact O|]. eapply Rle_lt_trans; [exact RL|exact (val_bound prec emax a)]. }
  destruct FIN as [F V]. split; [exact F|]. rewrite V. replace (rnd (val a / INR n) - w) with ((rnd (val a / INR n) - val a / INR n) + (val a / INR n - w)) by ring.
  eapply Rle_trans; [apply Rabs_triang|]. lra.
Qed.

(** Samples on a grid: integer multiples of 2^q. *)
Section Grid.
Variables (n : nat) (K q : Z).
Hypotheses (Hn : (0 < n)%nat) (HK : (Z.of_nat n * K <= 2 ^ prec)%Z) (Hq : (3 - emax - prec <= q)%Z) (Hq' : (prec + q < emax)%Z).
Definition on_grid (x : fl) : Prop := finite x /\ exists z, val x = IZR z * bpow radix2 q /\ (Z.abs z <= K)%Z.
Lemma fmt_grid z : (Z.abs z <= 2 ^ prec)%Z -> fmt (IZR z * bpow radix2 q) /\ Rabs (IZR z * bpow radix2 q) < bpow radix2 emax.
Proof.
  clear Hn HK. intros H. pose proof Hprec as P. unfold Prec_gt_0 in P. split.
  - destruct (Z.eq_dec (Z.abs z) (2 ^ prec)) as [Q|Q].
    + assert (B : fmt (bpow radix2 (prec + q))) by (apply (fmt_bpow prec emax); lia). rewrite bpow_plus, <- IZR_Zpower in B by lia. change (Z.pow radix2 prec) with (2 ^ prec)%Z in B. rewrite <- Q in B.
      destruct (Z.abs_spec z) as [[_ A]|[_ A]]; rewrite A in B; auto. rewrite opp_IZR in B. apply generic_format_opp in B. replace (- (- IZR z * bpow radix2 q)) with (IZR z * bpow radix2 q) in B by ring. exact B.
    + apply generic_format_FLT. exists (Float radix2 z q); [reflexivity|cbn [Fnum]|cbn [Fexp]; lia]. change (radix_val radix2) with 2%Z. lia.
  - rewrite Rabs_mult, (Rabs_right (bpow radix2 q)), <- abs_IZR by (apply Rle_ge, bpow_ge_0). apply Rle_lt_trans with (bpow radix2 (prec + q)); [|apply bpow_lt; lia].
    rewrite bpow_plus. apply Rmult_le_compat_r; [apply bpow_ge_0|]. rewrite <- IZR_Zpower by lia. apply IZR_le. exact H.
Qed.
Lemma total_grid l : Forall on_grid l -> exists z, total l = IZR z * bpow radix2 q /\ (Z.abs z <= Z.of_nat (length l) * K)%Z.
Proof.
  clear Hn HK Hq Hq'. induction 1 as [|x l [_ [z [V B]]] H [z' [V' B']]]; [exists 0%Z; split; [cbn; ring|cbn; lia]|].
  exists (z + z')%Z. split; [unfold total in *; cbn [map fold_right]; rewrite V, V', plus_IZR; ring|]. cbn [length]. lia.
Qed.
Lemma grid_exact xs : Forall on_grid xs -> (0 <= K)%Z ->
  let s := fold_left advance xs (start n) in finite (fst s) /\ Forall on_grid (snd s) /\ length (snd s) = n /\ val (fst s) = total (snd s).
Proof.
  intros Hx K0. induction xs as [|x xs IH] using rev_ind.
  - cbn [fold_left]. unfold start. cbn [fst snd]. split; [reflexivity|]. split; [apply Forall_forall; intros y Y; apply repeat_spec in Y; subst; split; [reflexivity|]; exists 0%Z; split; [change (val zero) with 0; ring|cbn; lia]|].
    split; [apply repeat_length|]. change (val zero) with 0. clear. induction n as [|k IH]; [reflexivity|]. unfold total in *. cbn. rewrite <- IH. lra.
  - apply Forall_app in Hx. destruct Hx as [Hs Hx]. inversion Hx as [|? ? [Fx [zx [Vx Bx]]] _]; subst. destruct (IH Hs) as [Fa [Sl [Ll D]]]. clear IH. rewrite fold_left_app. cbn [fold_left]. destruct (fold_left advance xs (start n)) as [a l]. cbn [fst snd] in *. cbv zeta.
    destruct l as [|h l]; [cbn in Ll; lia|]. unfold advance. cbn [fst snd hd tl]. inversion Sl as [|? ? [Fh [zh [Vh Bh]]] Sl']; subst.
    assert (TE : total (h :: l) = val h + total l) by reflexivity. assert (LE : length (l ++ [x]) = length (h :: l)) by (rewrite app_length; cbn; lia).
    assert (SX : Forall on_grid (l ++ [x])) by (apply Forall_app; split; auto). destruct (total_grid l Sl') as [z [Vz Bz]]. destruct (total_grid _ SX) as [w [Vw Bw]]. rewrite LE in Bw.
    assert (LL : (Z.of_nat (length l) * K <= Z.of_nat (length (h :: l)) * K)%Z) by (apply Z.mul_le_mono_nonneg_r; [exact K0|]; cbn [length]; lia).
    destruct (fmt_grid z ltac:(lia)) as [G1 G2]. destruct (fmt_grid w ltac:(lia)) as [G3 G4]. rewrite <- Vz in G1, G2. rewrite <- Vw in G3, G4.
    assert (S1 : finite (sub a h) /\ val (sub a h) = total l).
    { assert (E : val a - val h = total l) by lra. destruct (sub_cases prec emax a h Fa Fh) as [[_ [V F]]|[O _]]; rewrite E in *; rewrite (rnd_id prec emax _ G1) in *; [auto|lra]. }
    destruct S1 as [F1 V1].
    assert (S2 : finite (add (sub a h) x) /\ val (add (sub a h) x) = total (l ++ [x])).
    { assert (E : val (sub a h) + val x = total (l ++ [x])) by (rewrite total_app; lra). destruct (add_cases prec emax (sub a h) x F1 Fx) as [[_ [V F]]|[O _]]; rewrite E in *; rewrite (rnd_id prec emax _ G3) in *; [auto|lra]. }
    destruct S2 as [F2 V2]. auto.
Qed.
Lemma quotient (a : fl) (w : R) : (Z.of_nat n <= 2 ^ prec)%Z -> finite a -> val a = w * INR n -> finite (fdiv prec emax a (of_nat prec emax n)) /\ val (fdiv prec emax a (of_nat prec emax n)) = rnd w.
Proof.
  intros Hp Fa Va. destruct (of_nat_exact prec emax n Hp) as [Fn Vn]. assert (PN : 0 < INR n) by (apply lt_0_INR; auto).
  assert (E : val a / INR n = w) by (rewrite Va; field; lra).
  assert (LE : Rabs w <= Rabs (val a)). { rewrite Va, Rabs_mult, (Rabs_right (INR n)) by lra. rewrite <- (Rmult_1_r (Rabs w)) at 1. apply Rmult_le_compat_l; [apply Rabs_pos|]. change 1 with (INR 1). apply le_INR. lia. }
  assert (RL : Rabs (rnd w) <= Rabs (val a)).
  { apply Rabs_le_inv in LE. apply Rabs_le. split.
    - rewrite <- (rnd_id prec emax (- Rabs (val a))); [apply (rnd_le prec emax); lra|]. apply generic_format_opp, generic_format_abs, (fmt_val prec emax).
    - rewrite <- (rnd_id prec emax (Rabs (val a))); [apply (rnd_le prec emax); lra|]. apply generic_format_abs, (fmt_val prec emax). }
  destruct (div_cases prec emax a (of_nat prec emax n) Fa ltac:(rewrite Vn; lra)) as [[_ [V [F _]]]|[O _]]; [rewrite Vn, E in V; auto|rewrite Vn, E in O; exfalso].
  apply (Rlt_irrefl (bpow radix2 emax)). eapply Rle_lt_trans; [exact O|]. eapply Rle_lt_trans; [exact RL|exact (val_bound prec emax a)].
Qed.
End Grid.

(** Samples that are multiples of one power of two, such as PCM samples, of magnitude at most K steps with
    n K <= 2^prec, never drift: every output is the correctly rounded mean of the last n samples. *)
Theorem C125_average_grid n K q xs : (0 < n)%nat -> (Z.of_nat n * K <= 2 ^ prec)%Z -> (Z.of_nat n <= 2 ^ prec)%Z -> (0 <= K)%Z -> (3 - emax - prec <= q)%Z -> (prec + q < emax)%Z ->
  Forall (fun x => finite x /\ exists z, val x = IZR z * bpow radix2 q /\ (Z.abs z <= K)%Z) xs ->
  exists m ys, transform (fma_tick prec emax) (fm_new prec emax n) xs = Ok (m, ys) /\ length ys = length xs /\
  forall k, (k < length xs)%nat -> exists y, nth_error ys k = Some y /\ finite y /\ val y = rnd (window_mean (fun x => x) n (map val xs) k).
Proof.
  intros Hn HK Hp K0 Q1 Q2 Hx. destruct (average_trace n xs Hn) as [m [ys [E [L NT]]]]. exists m, ys. split; [exact E|]. split; [exact L|]. intros k Hk. eexists. split; [apply NT; exact Hk|].
  assert (HF : Forall (on_grid K q) (firstn (k + 1) xs)) by (rewrite <- (firstn_skipn (k + 1) xs) in Hx; apply Forall_app in Hx; apply Hx).
  destruct (grid_exact n K q Hn HK Q1 Q2 _ HF K0) as [Fa [_ [_ V]]]. rewrite (window_total n xs k Hn Hk) in V. apply (quotient n Hn); auto.
Qed.
(** Likewise the moving RMS, whose window holds squares: mean and root are each rounded once. *)
Theorem C125_rms_grid n K q xs : (0 < n)%nat -> (Z.of_nat n * (K * K) <= 2 ^ prec)%Z -> (Z.of_nat n <= 2 ^ prec)%Z -> (0 <= K)%Z -> (3 - emax - prec <= 2 * q)%Z -> (prec + 2 * q < emax)%Z ->
  Forall (fun x => finite x /\ exists z, val x = IZR z * bpow radix2 q /\ (Z.abs z <= K)%Z) xs ->
  exists m ys, transform (fmr_tick prec emax) (fm_new prec emax n) xs = Ok (m, ys) /\ length ys = length xs /\
  forall k, (k < length xs)%nat -> exists y, nth_error ys k = Some y /\ finite y /\ val y = rnd (sqrt (rnd (window_mean (fun x => x * x) n (map val xs) k))).
Proof.
  intros Hn HK Hp K0 Q1 Q2 Hx. destruct (rms_trace n xs Hn) as [m [ys [E [L NT]]]]. exists m, ys. split; [exact E|]. split; [exact L|]. intros k Hk. eexists. split; [apply NT; exact Hk|].
  set (sq := fun x : fl => sqr x) in *.
  assert (SQ : Forall (on_grid (K * K) (2 * q)) (map sq xs) /\ map val (map sq xs) = map (fun x => x * x) (map val xs)).
  { clear -Hx HK K0 Q1 Q2 Hn. induction Hx as [|x xs [F [z [V B]]] Hx [IH IE]]; [split; constructor|].
    assert (ZB : (Z.abs (z * z) <= K * K)%Z) by (rewrite Z.abs_mul; apply Z.mul_le_mono_nonneg; lia).
    assert (KK : (K * K <= 2 ^ prec)%Z) by nia.
    assert (E2 : val x * val x = IZR (z * z) * bpow radix2 (2 * q)) by (rewrite V, mult_IZR; replace (2 * q)%Z with (q + q)%Z by lia; rewrite bpow_plus; ring).
    destruct (fmt_grid (2 * q) Q1 Q2 (z * z) ltac:(lia)) as [G1 G2]. rewrite <- E2 in G1, G2.
    assert (S1 : finite (sq x) /\ val (sq x) = val x * val x). { unfold sq. destruct (mul_cases prec emax x x F F) as [[_ [W G]]|[O _]]; rewrite (rnd_id prec emax _ G1) in *; [auto|lra]. }
    destruct S1 as [F1 V1]. cbn [map]. rewrite V1, IE. split; [constructor; auto; split; [exact F1|]; exists (z * z)%Z; split; [congruence|exact ZB]|reflexivity]. }
  destruct SQ as [SQ SV].
  assert (HF : Forall (on_grid (K * K) (2 * q)) (firstn (k + 1) (map sq xs))) by (rewrite <- (firstn_skipn (k + 1) (map sq xs)) in SQ; apply Forall_app in SQ; apply SQ).
  assert (K2 : (0 <= K * K)%Z) by (apply Z.mul_nonneg_nonneg; auto).
  destruct (grid_exact n (K * K) (2 * q) Hn HK Q1 Q2 _ HF K2) as [Fa [_ [_ V]]]. rewrite (window_total n (map sq xs) k Hn) in V by (rewrite map_length; auto). rewrite SV in V.
  assert (WE : window_mean (fun x => x) n (map (fun x => x * x) (map val xs)) k = window_mean (fun x => x * x) n (map val xs) k).
  { unfold window_mean. f_equal. apply RealBaseProofs.sumf_ext. intros j _. unfold SignalSpec.past. destruct (j <=? k)%nat; [|ring]. transitivity (nth (k - j) (map (fun x => x * x) (map val xs)) (0 * 0)); [f_equal; ring|]. apply (map_nth (fun x => x * x)). }
  rewrite WE in V. rewrite <- firstn_map. destruct (quotient n Hn _ _ Hp Fa V) as [F1 V1].
  assert (W0 : 0 <= window_mean (fun x => x * x) n (map val xs) k).
  { unfold window_mean. apply Rmult_le_pos; [|left; apply Rinv_0_lt_compat, lt_0_INR; auto]. clear. generalize n. induction n0 as [|j IH]; cbn; [lra|]. pose proof (Rle_0_sqr (SignalSpec.past (map val xs) k j)) as S. unfold Rsqr in S. lra. }
  set (d := fdiv prec emax _ _) in *. assert (D0 : nn prec emax d) by (apply nn_fin; auto; rewrite V1; apply (rnd_pos prec emax); auto).
  destruct (sqrt_nn prec emax d D0) as [_ S]. destruct (S F1) as [S1 S2]. split; [exact S1|]. rewrite S2, V1. reflexivity.
Qed.
End Format.

(** 16-bit PCM samples as floats, windows of 512 for the average (and of 2^23 for the RMS in doubles). *)
Example C125_grid_example : (Z.of_nat 512 * 2 ^ 15 <= 2 ^ 24)%Z /\ (3 - 128 - 24 <= -15)%Z /\ (24 + -15 < 128)%Z /\
  (Z.of_nat 512 * (2 ^ 15 * 2 ^ 15) <= 2 ^ 53)%Z /\ (3 - 1024 - 53 <= 2 * -15)%Z /\ (53 + 2 * -15 < 1024)%Z /\
  Forall (fun x : float => finite x /\ exists z, B2R x = IZR z * bpow radix2 (-15) /\ (Z.abs z <= 2 ^ 15)%Z) [sratio 1 2; sgl 0; sratio 3 4].
Proof.
  repeat (split; [vm_compute; discriminate|]). split; [reflexivity|]. split; [vm_compute; discriminate|]. split; [vm_compute; discriminate|]. split; [reflexivity|].
  assert (V : forall (x : float) m e, B2SF x = SpecFloat.S754_finite false m e -> finite x /\ B2R x = IZR (Zpos m) * bpow radix2 e).
  { intros x m e. destruct x as [s'|s'| |s' m' e' H]; intros E; try discriminate E. cbn in E. injection E as -> -> ->. split; reflexivity. }
  constructor; [|constructor; [|constructor; [|constructor]]].
  - destruct (V (sratio 1 2) 8388608%positive (-24)%Z) as [F R]; [vm_compute; reflexivity|]. split; [exact F|]. exists 16384%Z. split; [rewrite R; cbn; lra|lia].
  - replace (sgl 0) with (B754_zero false : float) by (apply B2SF_inj; vm_compute; reflexivity). split; [reflexivity|]. exists 0%Z. split; [cbn; lra|lia].
  - destruct (V (sratio 3 4) 12582912%positive (-24)%Z) as [F R]; [vm_compute; reflexivity|]. split; [exact F|]. exists 24576%Z. split; [rewrite R; cbn; lra|lia].
Qed.
Example C125_drift_example : let xs := [ratio 1 10; ratio (-7) 9; dbl 1] in
  Forall (fun x : double => finite x /\ Rabs (B2R x) <= 1) xs /\ (1 + roundoff 53) ^ (2 * length xs) * (INR 2 * 1) < IZR (2 ^ 1024).
Proof.
  cbv zeta. assert (O : finite (dbl 1) /\ B2R (dbl 1) = 1). { split; [vm_compute; reflexivity|]. assert (E : B2SF (dbl 1) = SpecFloat.S754_finite false 4503599627370496 (-52)) by (vm_compute; reflexivity). destruct (dbl 1) as [s|s| |s m e H]; try discriminate E. cbn in E. injection E as -> -> ->. unfold B2R, F2R. cbn [cond_Zopp Fnum Fexp]. cbn. lra. }
  assert (V : forall x : double, Bleb (Babs x) (dbl 1) = true -> is_finite x = true -> finite x /\ Rabs (B2R x) <= 1).
  { intros x L F. split; [exact F|]. destruct O as [F1 V1]. assert (FA : is_finite (Babs x) = true) by (rewrite is_finite_Babs; exact F). apply (leb_true 53 1024) in L. destruct L as [_ [_ L]]. rewrite (level_fin 53 1024 (Babs x) FA), (level_fin 53 1024 (dbl 1) F1), V1, B2R_Babs in L. exact L. }
  split; [constructor; [apply V; vm_compute; reflexivity|constructor; [apply V; vm_compute; reflexivity|constructor; [apply V; vm_compute; reflexivity|constructor]]]|].
  unfold roundoff. apply Rlt_trans with 1000; [|apply IZR_lt; reflexivity]. change (2 ^ 53)%Z with 9007199254740992%Z. cbn [length Nat.mul Nat.add pow INR]. lra.
Qed.
Print Assumptions C125_average_drift.
Print Assumptions C125_average_grid.
Print Assumptions C125_rms_grid.
