(** Clipping, extrema and normalisation in IEEE formats: with NaN, infinities and rounding. *)
From Coq Require Import ZArith Reals List Bool Lia Lra Psatz.
From Flocq Require Import Core BinarySingleNaN.
From Verif Require Import Base FloatModel FloatSpec FloatProofs FloatProps.
Import ListNotations.
Local Open Scope R_scope.

Section Format.
Context (prec emax : Z) {Hprec : Prec_gt_0 prec} {Hmax : Prec_lt_emax prec emax}.
Notation fl := (binary_float prec emax).
Notation rnd := (round radix2 (FLT_exp (3 - emax - prec) prec) ZnearestE).
Notation val := (@B2R prec emax).
Notation u := (roundoff prec).
Notation lev := (level prec emax).

Lemma not_nan (x : fl) : ~ nan x <-> is_nan x = false.
Proof. unfold nan. destruct (is_nan x); split; intros; congruence. Qed.
Lemma le_iff (x y : fl) : le x y <-> is_nan x = false /\ is_nan y = false /\ lev x <= lev y.
Proof. apply leb_true. Qed.
Lemma lt_iff (x y : fl) : lt x y <-> is_nan x = false /\ is_nan y = false /\ lev x < lev y.
Proof. apply ltb_true. Qed.
Lemma flt_no (x y : fl) : is_nan x = false -> is_nan y = false -> flt prec emax x y = false -> lev y <= lev x.
Proof. intros A B C0. apply ltb_false; auto. Qed.
Lemma flt_yes (x y : fl) : flt prec emax x y = true -> lt x y.
Proof. auto. Qed.

(** C116: the clipper over bounds that are numbers in order.  NaN passes through; every other sample,
    infinite ones included, ends between the bounds, and samples between the bounds are untouched. *)
Theorem C116_clip mn mx v : le mn mx ->
  (nan v -> fclip prec emax mn mx v = v) /\
  (~ nan v -> le mn (fclip prec emax mn mx v) /\ le (fclip prec emax mn mx v) mx) /\
  (lt v mn -> fclip prec emax mn mx v = mn) /\ (lt mx v -> fclip prec emax mn mx v = mx) /\
  (le mn v -> le v mx -> fclip prec emax mn mx v = v).
Proof.
  intros L. apply le_iff in L. destruct L as [N1 [N2 L]]. rewrite not_nan. unfold fclip.
  destruct (flt prec emax v mn) eqn:A; [|destruct (flt prec emax mx v) eqn:B].
  - apply flt_yes, lt_iff in A. destruct A as [Nv [_ A]]. repeat split.
    + intros H. unfold nan in H. congruence.
    + apply le_iff. repeat split; auto; lra.
    + apply le_iff. repeat split; auto; lra.
    + intros H. apply lt_iff in H. lra.
    + intros H. apply le_iff in H. lra.
  - apply flt_yes, lt_iff in B. destruct B as [_ [Nv B]]. repeat split.
    + intros H. unfold nan in H. congruence.
    + apply le_iff. repeat split; auto; lra.
    + apply le_iff. repeat split; auto; lra.
    + intros H. apply lt_iff in H. lra.
    + intros _ H. apply le_iff in H. lra.
  - repeat split; auto.
    + apply le_iff. repeat split; auto. apply flt_no; auto.
    + apply le_iff. repeat split; auto. apply flt_no; auto.
    + intros H. unfold lt in H. unfold flt in A. congruence.
    + intros H. unfold lt in H. unfold flt in B. congruence.
Qed.
(** A NaN bound is no bound. *)
Theorem C116_nan_bounds mn mx v : nan mn -> nan mx -> fclip prec emax mn mx v = v.
Proof. intros A B. unfold fclip, flt. rewrite !(ltb_nan prec emax) by auto. reflexivity. Qed.
(** The plain amplifier: the rounded product, or an infinity of its sign. *)
Theorem C116_plain_amplifier factor v : finite factor -> finite v ->
  (Rabs (rnd (val factor * val v)) < IZR (2 ^ emax) -> finite (famp prec emax factor v) /\ val (famp prec emax factor v) = rnd (val factor * val v)) /\
  (IZR (2 ^ emax) <= Rabs (rnd (val factor * val v)) -> famp prec emax factor v = B754_infinity (xorb (Bsign factor) (Bsign v))).
Proof.
  intros Ff Fv. assert (E : IZR (2 ^ emax) = bpow radix2 emax) by (apply (IZR_Zpower radix2); pose proof Hprec as P; pose proof Hmax as M; unfold Prec_gt_0, Prec_lt_emax in *; lia). rewrite E. unfold famp.
  destruct (mul_cases prec emax factor v Ff Fv) as [[L [V F]]|[L I]]; split; intros H; auto; lra.
Qed.
(** Finite samples times a finite factor are never NaN: the clipped amplifier keeps them between the
    bounds, overflow included, and where the exact product is between the bounds the result is its
    rounding. *)
Theorem C116_amplifier factor mn mx v : finite factor -> finite v -> le mn mx ->
  le mn (famp_clip prec emax factor mn mx v) /\ le (famp_clip prec emax factor mn mx v) mx /\
  (finite mn -> finite mx -> val mn <= val factor * val v <= val mx ->
    finite (famp_clip prec emax factor mn mx v) /\
    Rabs (val (famp_clip prec emax factor mn mx v) - val factor * val v) <= u * Rabs (val factor * val v) + smallest prec emax / 2).
Proof.
  intros Ff Fv L. assert (N : is_nan (fmul prec emax factor v) = false).
  { destruct (mul_cases prec emax factor v Ff Fv) as [[_ [_ H]]|[_ H]]; [apply fin_not_nan; exact H|rewrite H; reflexivity]. }
  change (famp_clip prec emax factor mn mx v) with (fclip prec emax mn mx (fmul prec emax factor v)).
  destruct (C116_clip mn mx (fmul prec emax factor v) L) as [_ [H [_ [_ K]]]]. destruct (H (proj2 (not_nan _) N)) as [H1 H2]. split; [exact H1|]. split; [exact H2|].
  intros F1 F2 [B1 B2]. assert (R1 : val mn <= rnd (val factor * val v) <= val mx).
  { split; [rewrite <- (rnd_id prec emax (val mn)) by apply (fmt_val prec emax)|rewrite <- (rnd_id prec emax (val mx)) by apply (fmt_val prec emax)]; apply (rnd_le prec emax); auto. }
  destruct (mul_cases prec emax factor v Ff Fv) as [[_ [V F]]|[O _]].
  - rewrite K.
    + split; [exact F|]. rewrite V, (roundoff_u prec), (smallest_tiny prec emax). apply (rnd_err prec emax).
    + apply le_iff. rewrite !level_fin by auto. rewrite V. repeat split; auto; try apply fin_not_nan; auto; lra.
    + apply le_iff. rewrite !level_fin by auto. rewrite V. repeat split; auto; try apply fin_not_nan; auto; lra.
  - exfalso. pose proof (val_bound prec emax mn) as Q1. pose proof (val_bound prec emax mx) as Q2. apply Rabs_def2 in Q1, Q2.
    assert (Rabs (rnd (val factor * val v)) < bpow radix2 emax) by (apply Rabs_def1; lra). lra.
Qed.

(** C117: extrema. *)
Lemma max_scan_spec key (b : fl) l : (forall x, is_nan (key x) = is_nan x) -> is_nan b = false ->
  In (fmax_scan prec emax key b l) (b :: l) /\ is_nan (fmax_scan prec emax key b l) = false /\
  forall y, In y (b :: l) -> is_nan y = false -> lev (key y) <= lev (key (fmax_scan prec emax key b l)).
Proof.
  intros K. revert b. induction l as [|x l IH]; intros b N; cbn [fmax_scan].
  - split; [left; reflexivity|]. split; auto. intros y [->|[]] _. lra.
  - destruct (flt prec emax (key b) (key x)) eqn:E.
    + apply flt_yes, lt_iff in E. destruct E as [E1 [E2 E3]]. rewrite K in E2. destruct (IH x E2) as [I [M H]]. split; [right; exact I|]. split; [exact M|].
      intros y [->|[->|Y]] Ny; [|apply H; auto; left; auto|apply H; auto; right; auto]. eapply Rle_trans; [left; exact E3|]. apply H; auto. left; auto.
    + destruct (IH b N) as [I [M H]]. split; [destruct I as [I|I]; [left; auto|right; right; auto]|]. split; [exact M|].
      intros y [->|[->|Y]] Ny; [apply H; auto; left; auto| |apply H; auto; right; auto]. apply flt_no in E; [|rewrite K; auto|rewrite K; auto]. eapply Rle_trans; [exact E|]. apply H; auto. left; auto.
Qed.
Lemma min_scan_spec key (b : fl) l : (forall x, is_nan (key x) = is_nan x) -> is_nan b = false ->
  In (fmin_scan prec emax key b l) (b :: l) /\ is_nan (fmin_scan prec emax key b l) = false /\
  forall y, In y (b :: l) -> is_nan y = false -> lev (key (fmin_scan prec emax key b l)) <= lev (key y).
Proof.
  intros K. revert b. induction l as [|x l IH]; intros b N; cbn [fmin_scan].
  - split; [left; reflexivity|]. split; auto. intros y [->|[]] _. lra.
  - destruct (flt prec emax (key x) (key b)) eqn:E.
    + apply flt_yes, lt_iff in E. destruct E as [E1 [E2 E3]]. rewrite K in E1. destruct (IH x E1) as [I [M H]]. split; [right; exact I|]. split; [exact M|].
      intros y [->|[->|Y]] Ny; [|apply H; auto; left; auto|apply H; auto; right; auto]. eapply Rle_trans; [|left; exact E3]. apply H; auto. left; auto.
    + destruct (IH b N) as [I [M H]]. split; [destruct I as [I|I]; [left; auto|right; right; auto]|]. split; [exact M|].
      intros y [->|[->|Y]] Ny; [apply H; auto; left; auto| |apply H; auto; right; auto]. apply flt_no in E; [|rewrite K; auto|rewrite K; auto]. eapply Rle_trans; [|exact E]. apply H; auto. left; auto.
Qed.
Lemma scan_nan key (b : fl) l : (forall x, is_nan (key x) = is_nan x) -> is_nan b = true ->
  fmax_scan prec emax key b l = b /\ fmin_scan prec emax key b l = b.
Proof.
  intros K N. induction l as [|x l [IH1 IH2]]; [auto|]. cbn [fmax_scan fmin_scan]. unfold flt. rewrite !(ltb_nan prec emax) by (rewrite !K; auto). auto.
Qed.
Lemma abs_nan (x : fl) : is_nan (fabs prec emax x) = is_nan x. Proof. apply is_nan_Babs. Qed.
Lemma abs_level (x : fl) : is_nan x = false -> lev (fabs prec emax x) = Rabs (lev x).
Proof.
  intros N. pose proof (bpow_gt_0 radix2 emax). destruct x as [s|[]| |s m e H0]; try discriminate; cbn [fabs Babs level].
  - cbn. rewrite Rabs_R0. reflexivity.
  - rewrite Rabs_left by lra. lra.
  - rewrite Rabs_right by lra. reflexivity.
  - change (val (Babs (B754_finite s m e H0)) = Rabs (val (B754_finite s m e H0))). apply B2R_Babs.
Qed.
Lemma le_abs (x y : fl) : is_nan x = false -> is_nan y = false -> Rabs (lev x) <= Rabs (lev y) -> le (fabs prec emax x) (fabs prec emax y).
Proof. intros A B H. apply le_iff. rewrite !abs_nan, !abs_level by auto. auto. Qed.

(** When the first element is a number the maximum is an element, a number, and bounds every number of
    the range, wherever NaNs are; when the first element is NaN the result is NaN. *)
Theorem C117_max l : l <> [] -> exists r, f_max prec emax l = Ok r /\ f_max prec emax [] = UB /\
  (nan (hd (B754_zero false) l) -> nan r) /\
  (~ nan (hd (B754_zero false) l) -> In r l /\ forall y, In y l -> ~ nan y -> le y r).
Proof.
  destruct l as [|x l]; [congruence|]. intros _. exists (fmax_scan prec emax (fun v => v) x l). split; [reflexivity|]. split; [reflexivity|]. cbn [hd]. split.
  - intros N. rewrite (proj1 (scan_nan (fun v => v) x l (fun _ => eq_refl) N)). exact N.
  - intros N. apply not_nan in N. destruct (max_scan_spec (fun v => v) x l (fun _ => eq_refl) N) as [I [M H]]. split; [exact I|].
    intros y Y Ny. apply not_nan in Ny. apply le_iff. auto.
Qed.
Theorem C117_min l : l <> [] -> exists r, f_min prec emax l = Ok r /\ f_min prec emax [] = UB /\
  (nan (hd (B754_zero false) l) -> nan r) /\
  (~ nan (hd (B754_zero false) l) -> In r l /\ forall y, In y l -> ~ nan y -> le r y).
Proof.
  destruct l as [|x l]; [congruence|]. intros _. exists (fmin_scan prec emax (fun v => v) x l). split; [reflexivity|]. split; [reflexivity|]. cbn [hd]. split.
  - intros N. rewrite (proj2 (scan_nan (fun v => v) x l (fun _ => eq_refl) N)). exact N.
  - intros N. apply not_nan in N. destruct (min_scan_spec (fun v => v) x l (fun _ => eq_refl) N) as [I [M H]]. split; [exact I|].
    intros y Y Ny. apply not_nan in Ny. apply le_iff. auto.
Qed.
(** The same for magnitudes: the result is the magnitude of an element. *)
Theorem C117_maxabs l : l <> [] -> exists r, f_maxabs prec emax l = Ok r /\ f_maxabs prec emax [] = UB /\
  (nan (hd (B754_zero false) l) -> nan r) /\
  (~ nan (hd (B754_zero false) l) -> (exists p, In p l /\ r = Babs p) /\ forall y, In y l -> ~ nan y -> le (Babs y) r).
Proof.
  destruct l as [|x l]; [congruence|]. intros _. exists (fabs prec emax (fmax_scan prec emax (fabs prec emax) x l)). split; [reflexivity|]. split; [reflexivity|]. cbn [hd]. split.
  - intros N. rewrite (proj1 (scan_nan _ x l abs_nan N)). unfold nan. rewrite abs_nan. exact N.
  - intros N. apply not_nan in N. destruct (max_scan_spec _ x l abs_nan N) as [I [M H]]. split; [eexists; split; [exact I|reflexivity]|].
    intros y Y Ny. apply not_nan in Ny. apply le_iff. change (@Babs prec emax) with (fabs prec emax). rewrite !abs_nan. auto.
Qed.
Theorem C117_minabs l : l <> [] -> exists r, f_minabs prec emax l = Ok r /\ f_minabs prec emax [] = UB /\
  (nan (hd (B754_zero false) l) -> nan r) /\
  (~ nan (hd (B754_zero false) l) -> (exists p, In p l /\ r = Babs p) /\ forall y, In y l -> ~ nan y -> le r (Babs y)).
Proof.
  destruct l as [|x l]; [congruence|]. intros _. exists (fabs prec emax (fmin_scan prec emax (fabs prec emax) x l)). split; [reflexivity|]. split; [reflexivity|]. cbn [hd]. split.
  - intros N. rewrite (proj2 (scan_nan _ x l abs_nan N)). unfold nan. rewrite abs_nan. exact N.
  - intros N. apply not_nan in N. destruct (min_scan_spec _ x l abs_nan N) as [I [M H]]. split; [eexists; split; [exact I|reflexivity]|].
    intros y Y Ny. apply not_nan in Ny. apply le_iff. change (@Babs prec emax) with (fabs prec emax). rewrite !abs_nan. auto.
Qed.

(** C118: normalisation of finite samples that are not all zero. *)
Lemma maxabs_finite l : all_finite l -> l <> [] ->
  exists p, In p l /\ f_maxabs prec emax l = Ok (Babs p) /\ forall y, In y l -> Rabs (val y) <= Rabs (val p).
Proof.
  intros A N. destruct (C117_maxabs l N) as [r [E [_ [_ H]]]]. destruct l as [|x l]; [congruence|]. cbn [hd] in H.
  assert (Fx : finite x) by (inversion A; auto). destruct H as [[p [P ->]] B]; [apply not_nan, fin_not_nan; exact Fx|]. exists p. split; [exact P|]. split; [exact E|].
  intros y Y. unfold all_finite in A; rewrite Forall_forall in A. assert (Fy : finite y) by auto. assert (Fp : finite p) by auto.
  specialize (B y Y (proj2 (not_nan y) (fin_not_nan _ _ y Fy))). apply le_iff in B. destruct B as [_ [_ B]]. change (@Babs prec emax) with (fabs prec emax) in B.
  rewrite !abs_level in B by (apply fin_not_nan; auto). rewrite !level_fin in B by auto. exact B.
Qed.
Lemma normalize_point (p x : fl) : finite p -> finite x -> val p <> 0 -> Rabs (val x) <= Rabs (val p) ->
  finite (fdiv prec emax x (Babs p)) /\ val (fdiv prec emax x (Babs p)) = rnd (val x / Rabs (val p)) /\ Rabs (rnd (val x / Rabs (val p))) <= 1.
Proof.
  intros Fp Fx N B. assert (Ap : 0 < Rabs (val p)) by (apply Rabs_pos_lt; auto).
  assert (Vp : val (Babs p) = Rabs (val p)) by apply B2R_Babs.
  assert (Q : Rabs (val x / Rabs (val p)) <= 1).
  { unfold Rdiv. rewrite Rabs_mult, Rabs_inv, Rabs_Rabsolu. apply Rmult_le_reg_r with (Rabs (val p)); auto. rewrite Rmult_assoc, Rinv_l by lra. lra. }
  assert (R1 : Rabs (rnd (val x / Rabs (val p))) <= 1).
  { apply Rabs_le. apply Rabs_le_inv in Q. destruct Q as [Q1 Q2]. pose proof (fmt_1 prec emax) as F1. split.
    - rewrite <- (rnd_id prec emax 1) by exact F1. rewrite <- (rnd_opp prec emax). apply (rnd_le prec emax). lra.
    - rewrite <- (rnd_id prec emax 1) by exact F1. apply (rnd_le prec emax). lra. }
  destruct (div_cases prec emax x (Babs p) Fx) as [[_ [V [F _]]]|[O _]]; [rewrite Vp; lra|rewrite Vp in V; auto|].
  exfalso. rewrite Vp in O. assert (1 < bpow radix2 emax); [|lra]. change 1 with (bpow radix2 0). apply bpow_lt.
  pose proof Hprec as P. pose proof Hmax as M. unfold Prec_gt_0, Prec_lt_emax in *. lia.
Qed.
Theorem C118_normalize l : all_finite l -> (exists x, In x l /\ val x <> 0) ->
  exists p ys, In p l /\ (forall x, In x l -> Rabs (val x) <= Rabs (val p)) /\ f_normalize prec emax l = Ok ys /\
  Forall2 (fun x y => finite y /\ -1 <= val y <= 1 /\ (Rabs (val x) = Rabs (val p) -> Rabs (val y) = 1) /\ 0 <= val x * val y /\
                      Rabs (val y - val x / Rabs (val p)) <= u * Rabs (val x / val p) + smallest prec emax / 2) l ys /\
  (forall i j, (i < length l)%nat -> (j < length l)%nat -> val (nth i l (fzero prec emax)) <= val (nth j l (fzero prec emax)) ->
               val (nth i ys (fzero prec emax)) <= val (nth j ys (fzero prec emax))).
Proof.
  intros A [x0 [X0 Z0]]. assert (N : l <> []) by (intros ->; destruct X0). destruct (maxabs_finite l A N) as [p [P [E B]]].
  unfold all_finite in A; rewrite Forall_forall in A. assert (Np : val p <> 0).
  { intros H. specialize (B x0 X0). rewrite H, Rabs_R0 in B. pose proof (Rabs_pos_lt _ Z0). lra. }
  assert (Ap : 0 < Rabs (val p)) by (apply Rabs_pos_lt; auto).
  exists p, (map (fun v => fdiv prec emax v (Babs p)) l). split; [exact P|]. split; [exact B|]. split; [unfold f_normalize; rewrite E; reflexivity|].
  assert (PT : forall x, In x l -> finite (fdiv prec emax x (Babs p)) /\ val (fdiv prec emax x (Babs p)) = rnd (val x / Rabs (val p)) /\ Rabs (rnd (val x / Rabs (val p))) <= 1).
  { intros x X. apply normalize_point; auto. }
  split.
  - assert (G : forall m, incl m l -> Forall2 (fun x y => finite y /\ -1 <= val y <= 1 /\ (Rabs (val x) = Rabs (val p) -> Rabs (val y) = 1) /\ 0 <= val x * val y /\
                      Rabs (val y - val x / Rabs (val p)) <= u * Rabs (val x / val p) + smallest prec emax / 2) m (map (fun v => fdiv prec emax v (Babs p)) m)).
    { induction m as [|x m IH]; intros I; [constructor|]. cbn [map]. constructor; [|apply IH; intros y Y; apply I; right; auto].
      destruct (PT x (I x (or_introl eq_refl))) as [F [V Q]]. split; [exact F|]. rewrite V. split; [apply Rabs_le_inv in Q; lra|]. split.
      - intros H. pose proof (fmt_1 prec emax) as F1. unfold Rabs in H |- * at 1. destruct (Rcase_abs (val x)) as [c|c].
        + replace (val x / Rabs (val p)) with (- (1)); [rewrite (rnd_opp prec emax), (rnd_id prec emax) by exact F1; destruct (Rcase_abs (- (1))); lra|].
          assert (Hx : val x = - Rabs (val p)) by (fold (Rabs (val p)) in H; lra). rewrite Hx. field. lra.
        + replace (val x / Rabs (val p)) with 1; [rewrite (rnd_id prec emax) by exact F1; destruct (Rcase_abs 1); lra|].
          assert (Hx : val x = Rabs (val p)) by (fold (Rabs (val p)) in H; lra). rewrite Hx. field. lra.
      - split.
        + destruct (Rle_dec 0 (val x)) as [c|c].
          * apply Rmult_le_pos; auto. apply rnd_pos; auto. apply Rmult_le_pos; auto. left. apply Rinv_0_lt_compat; auto.
          * assert (0 <= rnd (- (val x / Rabs (val p)))); [|rewrite (rnd_opp prec emax) in H; nra]. apply rnd_pos; auto.
            replace (- (val x / Rabs (val p))) with ((- val x) * / Rabs (val p)) by (unfold Rdiv; ring). apply Rmult_le_pos; [lra|]. left. apply Rinv_0_lt_compat; auto.
        + pose proof (rnd_err prec emax (val x / Rabs (val p))) as D. rewrite <- (roundoff_u prec), <- (smallest_tiny prec emax) in D.
          replace (Rabs (val x / val p)) with (Rabs (val x / Rabs (val p))); [exact D|]. unfold Rdiv. rewrite !Rabs_mult, !Rabs_inv, Rabs_Rabsolu. reflexivity. }
    apply G. apply incl_refl.
  - intros i j Hi Hj L. set (g := fun v => fdiv prec emax v (Babs p)).
    rewrite !(nth_indep (map g l) (fzero prec emax) (g (fzero prec emax))) by (rewrite map_length; auto). rewrite !map_nth.
    destruct (PT _ (nth_In l (fzero prec emax) Hi)) as [_ [Vi _]]. destruct (PT _ (nth_In l (fzero prec emax) Hj)) as [_ [Vj _]]. unfold g. rewrite Vi, Vj.
    apply (rnd_le prec emax). apply Rmult_le_compat_r; auto. left. apply Rinv_0_lt_compat; auto.
Qed.
(** A range of zeros becomes NaN. *)
Theorem C118_normalize_silence l : l <> [] -> all_finite l -> (forall x, In x l -> val x = 0) ->
  exists ys, f_normalize prec emax l = Ok ys /\ length ys = length l /\ Forall nan ys.
Proof.
  intros N A Z. destruct (maxabs_finite l A N) as [p [P [E _]]]. exists (map (fun v => fdiv prec emax v (Babs p)) l).
  split; [unfold f_normalize; rewrite E; reflexivity|]. split; [apply map_length|]. apply Forall_forall. intros y Y. apply in_map_iff in Y. destruct Y as [x [<- X]].
  unfold all_finite in A; rewrite Forall_forall in A. assert (S : forall z, In z l -> exists s, z = B754_zero s).
  { intros z I. specialize (Z z I). specialize (A z I). destruct z as [s|s| |s m e H0]; try discriminate A; [eauto|].
    exfalso. apply (proj2 (val_nonzero prec emax (B754_finite s m e H0)) ltac:(eauto)). exact Z. }
  destruct (S x X) as [s ->]. destruct (S p P) as [s' ->]. reflexivity.
Qed.
End Format.

Example C116_example : le (dbl (-1)) (dbl 1) /\ B2SF (fclip 53 1024 (dbl (-1)) (dbl 1) (B754_infinity true)) = B2SF (dbl (-1)) /\ finite (ratio 1 3).
Proof. repeat split; vm_compute; reflexivity. Qed.
Example C117_example : match f_max 53 1024 [dbl 1; B754_nan; dbl 3; B754_infinity true] with Ok r => B2SF r = B2SF (dbl 3) | _ => False end.
Proof. vm_compute. reflexivity. Qed.
Example C118_example : all_finite [dbl 3; ratio (-7) 2; dbl 0] /\ (exists x, In x [dbl 3; ratio (-7) 2; dbl 0] /\ lt x (dbl 0)).
Proof. split; [repeat constructor|]. exists (ratio (-7) 2). split; [right; left; reflexivity|]. vm_compute. reflexivity. Qed.
Print Assumptions C116_clip.
Print Assumptions C116_nan_bounds.
Print Assumptions C116_plain_amplifier.
Print Assumptions C116_amplifier.
Print Assumptions C117_max.
Print Assumptions C117_min.
Print Assumptions C117_maxabs.
Print Assumptions C117_minabs.
Print Assumptions C118_normalize.
Print Assumptions C118_normalize_silence.
