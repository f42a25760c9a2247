(** C138: zero-crossing rate, durations, crest factor, roll-off and norm in floating point. *)
From Coq Require Import ZArith Reals List Bool Lia Lra Psatz.
From Flocq Require Import Core BinarySingleNaN.
From Verif Require Import Base FloatModel FloatSpec FloatProofs FloatProps FloatOrderProps FloatEnergyProps FloatClockProps FloatNumModel FloatFeatModel.
Import ListNotations.
Local Open Scope R_scope.

(** Number of neighbours of which exactly one is negative (NaN is not). *)
Definition crossings {prec emax} (l : list (binary_float prec emax)) : nat :=
  let negative i := Bltb (nth i l (B754_zero false)) (B754_zero false) in
  length (filter (fun i => negb (Bool.eqb (negative i) (negative (S i)))) (seq 0 (length l - 1))).
(** Number of samples of magnitude above [t]. *)
Definition louder {prec emax} (t : R) (l : list (binary_float prec emax)) : nat :=
  length (filter (fun x => if Rlt_dec t (Rabs (B2R x)) then true else false) l).

Section Format.
Context (prec emax : Z) {Hprec : Prec_gt_0 prec} {Hmax : Prec_lt_emax prec emax}.
Notation fl := (binary_float prec emax).
Notation rnd := (round radix2 (FLT_exp (3 - emax - prec) prec) ZnearestE).
Notation fmt := (generic_format radix2 (FLT_exp (3 - emax - prec) prec)).
Notation val := (@B2R prec emax).
Notation u := (roundoff prec).
Notation eta := (smallest prec emax).
Notation zero := (fzero prec emax).
Notation ofz := (of_Z prec emax).
Notation add := (fadd prec emax).
Notation mul := (fmul prec emax).
Notation div := (fdiv prec emax).
Notation lev := (level prec emax).

Lemma of_Z_exact n : (Z.abs n <= 2 ^ prec)%Z -> finite (ofz n) /\ val (ofz n) = IZR n.
Proof.
  intros H. unfold of_Z, finite. pose proof (binary_normalize_correct prec emax Hprec Hmax mode_NE n 0 false) as C. cbv zeta in C.
  assert (E : F2R (Float radix2 n 0) = IZR n) by (unfold F2R; cbn; ring). rewrite E in C. cbn [round_mode] in C.
  change (FLT_exp (SpecFloat.emin prec emax) prec) with (FLT_exp (3 - emax - prec) prec) in C. rewrite (rnd_id prec emax) in C by (apply (fmt_small prec emax); auto).
  assert (L : Rabs (IZR n) < bpow radix2 emax).
  { rewrite <- abs_IZR. apply Rle_lt_trans with (bpow radix2 prec); [|apply bpow_lt; exact Hmax]. rewrite <- IZR_Zpower by (pose proof Hprec as P; unfold Prec_gt_0 in P; lia). apply IZR_le. exact H. }
  rewrite Rlt_bool_true in C by exact L. destruct C as [C1 [C2 _]]. split; auto.
Qed.
Lemma small_pow : (2 <= 2 ^ prec)%Z.
Proof. pose proof Hprec as P. unfold Prec_gt_0 in P. apply (Z.pow_le_mono_r 2 1 prec); lia. Qed.
Lemma sign_eq x p : Beqb (f_sign prec emax x) (f_sign prec emax p) = Bool.eqb (Bltb x zero) (Bltb p zero).
Proof.
  pose proof small_pow as S. destruct (of_Z_exact 1 ltac:(cbn; lia)) as [F1 V1]. destruct (of_Z_exact (-1) ltac:(cbn; lia)) as [F2 V2].
  unfold f_sign, flt. destruct (Bltb x zero), (Bltb p zero); cbn [Bool.eqb]; rewrite Beqb_correct by auto; rewrite ?V1, ?V2;
    (apply Req_bool_true || apply Req_bool_false); lra.
Qed.
Lemma crossings_cons x y l : @crossings prec emax (x :: y :: l) = ((if Bool.eqb (Bltb y zero) (Bltb x zero) then 0 else 1) + crossings (y :: l))%nat.
Proof.
  unfold crossings. cbn [length]. replace (S (S (length l)) - 1)%nat with (S (length l)) by lia. replace (S (length l) - 1)%nat with (length l) by lia.
  cbn [seq filter]. rewrite <- seq_shift. change (nth 0 (x :: y :: l) (B754_zero false)) with x. change (nth 1 (x :: y :: l) (B754_zero false)) with y.
  assert (G : forall m, length (filter (fun i => negb (Bool.eqb (Bltb (nth i (x :: y :: l) (B754_zero false)) (B754_zero false)) (Bltb (nth (S i) (x :: y :: l) (B754_zero false)) (B754_zero false)))) (map S m)) =
     length (filter (fun i => negb (Bool.eqb (Bltb (nth i (y :: l) (B754_zero false)) (B754_zero false)) (Bltb (nth (S i) (y :: l) (B754_zero false)) (B754_zero false)))) m)).
  { induction m as [|k m IH]; [reflexivity|]. cbn [map filter]. change (nth (S k) (x :: y :: l) (B754_zero false)) with (nth k (y :: l) (B754_zero false : fl)).
    change (nth (S (S k)) (x :: y :: l) (B754_zero false)) with (nth (S k) (y :: l) (B754_zero false : fl)).
    destruct (Bool.eqb _ _); cbn [negb length]; rewrite IH; reflexivity. }
  specialize (G (seq 0 (length l))). change (B754_zero false) with zero in *. destruct (Bltb x zero), (Bltb y zero); cbn [Bool.eqb negb length]; rewrite G; reflexivity.
Qed.
Lemma crossings_le (l : list fl) : (crossings l <= length l - 1)%nat.
Proof.
  unfold crossings. eapply Nat.le_trans; [|rewrite <- (seq_length (length l - 1) 0); apply Nat.le_refl].
  set (f := fun i : nat => _). generalize (seq 0 (length l - 1)). induction l0 as [|k m IH]; cbn [filter length]; [lia|]. destruct (f k); cbn [length]; lia.
Qed.
(** Counting by ones stops at 2^prec. *)
Lemma stall : (1 < prec)%Z -> rnd (IZR (2 ^ prec) + 1) = IZR (2 ^ prec).
Proof.
  intros P1. pose proof Hprec as P. pose proof Hmax as M. unfold Prec_gt_0, Prec_lt_emax in *.
  assert (B : IZR (2 ^ prec) = bpow radix2 prec) by (rewrite <- IZR_Zpower by lia; reflexivity).
  assert (B1 : 1 < bpow radix2 prec) by (change 1 with (bpow radix2 0); apply bpow_lt; lia).
  assert (Mg : mag radix2 (IZR (2 ^ prec) + 1) = (prec + 1)%Z :> Z).
  { apply mag_unique. rewrite B, Rabs_pos_eq by lra. replace (prec + 1 - 1)%Z with prec by ring. split; [lra|].
    rewrite bpow_plus. change (bpow radix2 1) with 2. lra. }
  assert (Ce : cexp radix2 (FLT_exp (3 - emax - prec) prec) (IZR (2 ^ prec) + 1) = 1%Z) by (unfold cexp; rewrite Mg; unfold FLT_exp; lia).
  unfold round, scaled_mantissa. rewrite Ce. change (bpow radix2 (- (1))) with (/ 2).
  assert (Q : (2 ^ prec = 2 * 2 ^ (prec - 1))%Z) by (rewrite <- (Z.pow_succ_r 2 (prec - 1)) by lia; f_equal; lia).
  set (m := (2 ^ (prec - 1))%Z) in *. assert (Ev : Z.even m = true).
  { unfold m. replace (prec - 1)%Z with (Z.succ (prec - 2)) by lia. rewrite Z.pow_succ_r by lia. rewrite Z.even_mul. reflexivity. }
  rewrite Q, mult_IZR. replace ((2 * IZR m + 1) * / 2) with (IZR m + / 2) by field.
  assert (Fl : Zfloor (IZR m + / 2) = m) by (apply Zfloor_imp; rewrite plus_IZR; lra).
  unfold Znearest. rewrite Fl. replace (IZR m + / 2 - IZR m) with (/ 2) by ring. rewrite Rcompare_Eq by reflexivity. rewrite Ev. cbn [negb].
  unfold F2R. cbn [Fnum Fexp]. change (bpow radix2 1) with 2. ring.
Qed.
Lemma zc_loop_ok : (1 < prec)%Z -> forall l p acc c, finite acc -> val acc = IZR c -> (0 <= c <= 2 ^ prec)%Z ->
  finite (fzc_loop prec emax p l acc) /\ val (fzc_loop prec emax p l acc) = IZR (Z.min (c + Z.of_nat (crossings (p :: l))) (2 ^ prec)).
Proof.
  intros P1. pose proof small_pow as S2. destruct (of_Z_exact 1 ltac:(cbn; lia)) as [F1 V1]. destruct (of_Z_exact 0 ltac:(cbn; lia)) as [F0 V0].
  assert (Big : IZR (2 ^ prec) < bpow radix2 emax).
  { pose proof Hprec as P. unfold Prec_gt_0 in P. replace (IZR (2 ^ prec)) with (bpow radix2 prec) by (rewrite <- IZR_Zpower by lia; reflexivity). apply bpow_lt. exact Hmax. }
  induction l as [|x l IH]; intros p acc c F V C.
  - cbn [fzc_loop]. split; auto. rewrite V. f_equal. change (crossings [p]) with 0%nat. rewrite Z.add_0_r, Z.min_l; lia.
  - cbn [fzc_loop]. rewrite sign_eq, crossings_cons. change (fzero prec emax) with zero. set (d := Bool.eqb (Bltb x zero) (Bltb p zero)).
    set (k := if d then 0%Z else 1%Z). assert (Fk : finite (ofz k) /\ val (ofz k) = IZR k) by (unfold k; destruct d; auto). destruct Fk as [Fk Vk].
    assert (K : k = 0%Z \/ (k = 1%Z)) by (unfold k; destruct d; auto).
    assert (R1 : rnd (val acc + val (ofz k)) = IZR (Z.min (c + k) (2 ^ prec))).
    { rewrite V, Vk. destruct (Z.eq_dec (c + k) (2 ^ prec + 1)) as [E|E].
      - assert (c = 2 ^ prec /\ k = 1)%Z as [-> ->] by lia. rewrite stall by auto. f_equal. lia.
      - rewrite <- plus_IZR, (rnd_id prec emax) by (apply (fmt_small prec emax); lia). f_equal. lia. }
    destruct (add_cases prec emax acc (ofz k) F Fk) as [[_ [V2 F2]]|[O _]].
    + rewrite R1 in V2. destruct (IH x (add acc (ofz k)) _ F2 V2 ltac:(lia)) as [G1 G2]. split; auto. rewrite G2. f_equal. subst k. destruct d; lia.
    + exfalso. rewrite R1, Rabs_pos_eq in O by (apply IZR_le; lia). apply (Rlt_not_le _ _ Big). eapply Rle_trans; [exact O|]. apply IZR_le. lia.
Qed.

(** The rate of a range of at least two samples: the number of sign changes, but no more than 2^prec
    of them, over the number of neighbours; never NaN, between 0 and 1. *)
Theorem C138_azcr_actual l : (1 < prec)%Z -> (2 <= length l)%nat -> (Z.of_nat (length l) <= 2 ^ (emax - 1) + 1)%Z ->
  exists r, f_azcr prec emax l = Ok r /\ finite r /\ 0 <= val r <= 1 /\
    val r = rnd (IZR (Z.min (Z.of_nat (crossings l)) (2 ^ prec)) / rnd (INR (length l - 1))).
Proof.
  intros P1 L B. destruct l as [|p l]; [cbn in L; lia|]. eexists. split; [reflexivity|].
  destruct (zc_loop_ok P1 l p zero 0 eq_refl eq_refl) as [F V]; [pose proof small_pow; lia|]. rewrite Z.add_0_l in V. set (a := fzc_loop prec emax p l zero) in *.
  set (c := Z.min (Z.of_nat (crossings (p :: l))) (2 ^ prec)) in *. pose proof (crossings_le (p :: l)) as Cl. cbn [length] in *.
  replace (Z.of_nat (S (length l)) - 1)%Z with (Z.of_nat (length l)) by lia. replace (S (length l) - 1)%nat with (length l) in * by lia.
  destruct (of_Z_fin prec emax (Z.of_nat (length l)) ltac:(lia)) as [Fn Vn]. rewrite INR_IZR_INZ.
  set (n := ofz (Z.of_nat (length l))) in *. rewrite <- Vn. pose proof small_pow as S2.
  assert (N1 : 1 <= val n). { rewrite Vn. rewrite <- (rnd_id prec emax 1) by apply (fmt_1 prec emax). apply (rnd_le prec emax). apply IZR_le. lia. }
  assert (Cn : 0 <= val a <= val n).
  { rewrite V, Vn. split; [apply IZR_le; unfold c; lia|]. rewrite <- (rnd_id prec emax (IZR c)) by (apply (fmt_small prec emax); unfold c; lia). apply (rnd_le prec emax). apply IZR_le. unfold c. lia. }
  assert (Q : 0 <= val a / val n <= 1).
  { split; [apply Rmult_le_pos; [lra|left; apply Rinv_0_lt_compat; lra]|]. apply Rmult_le_reg_r with (val n); [lra|]. unfold Rdiv. rewrite Rmult_assoc, Rinv_l by lra. lra. }
  assert (Rq : 0 <= rnd (val a / val n) <= 1).
  { split; [apply (rnd_pos prec emax); lra|]. rewrite <- (rnd_id prec emax 1) by apply (fmt_1 prec emax). apply (rnd_le prec emax). lra. }
  destruct (div_cases prec emax a n F ltac:(lra)) as [[_ [Vd [Fd _]]]|[O _]].
  - split; [exact Fd|]. rewrite Vd. split; [exact Rq|]. rewrite V. reflexivity.
  - exfalso. rewrite Rabs_pos_eq in O by lra. assert (1 < bpow radix2 emax); [|lra]. change 1 with (bpow radix2 0). apply bpow_lt. pose proof Hprec as P. pose proof Hmax as M. unfold Prec_gt_0, Prec_lt_emax in *. lia.
Qed.
(** Up to 2^prec neighbours (about 16 million for [float]) it is the exact rate, correctly rounded. *)
Theorem C138_azcr_partial l : (1 < prec)%Z -> (2 <= length l)%nat -> (Z.of_nat (length l) <= 2 ^ prec + 1)%Z ->
  exists r, f_azcr prec emax l = Ok r /\ finite r /\ 0 <= val r <= 1 /\ val r = rnd (INR (crossings l) / INR (length l - 1)).
Proof.
  intros P1 L B. pose proof Hmax as M. pose proof Hprec as P. unfold Prec_lt_emax in M. unfold Prec_gt_0 in P.
  assert (B2 : (2 ^ prec <= 2 ^ (emax - 1))%Z) by (apply Z.pow_le_mono_r; lia).
  assert (E : rnd (INR (length l - 1)) = INR (length l - 1)) by (apply (rnd_id prec emax); rewrite INR_IZR_INZ; apply (fmt_small prec emax); lia).
  pose proof (crossings_le l) as Cl. assert (Cm : IZR (Z.min (Z.of_nat (crossings l)) (2 ^ prec)) = INR (crossings l)) by (rewrite INR_IZR_INZ; f_equal; lia).
  destruct (C138_azcr_actual l P1 L ltac:(lia)) as [r [E1 [F [R V]]]]. exists r. rewrite E, Cm in V. auto.
Qed.
Theorem C138_azcr_short x : f_azcr prec emax [] = UB /\ exists r, f_azcr prec emax [x] = Ok r /\ nan r.
Proof.
  split; [reflexivity|]. eexists. split; [reflexivity|]. cbn [fzc_loop length]. change (Z.of_nat 1 - 1)%Z with 0%Z.
  pose proof small_pow as S. destruct (of_Z_exact 0 ltac:(cbn; lia)) as [F V]. destruct (ofz 0) as [s|s| |s m e H]; try discriminate F; [reflexivity|].
  exfalso. destruct (proj2 (val_nonzero prec emax (B754_finite s m e H)) ltac:(do 4 eexists; reflexivity)) as [_ Z]. auto.
Qed.

(** ** Durations *)
Lemma count_div k sr : (Z.of_nat k <= 2 ^ prec)%Z -> finite sr -> 1 <= val sr ->
  finite (div (of_nat prec emax k) sr) /\ val (div (of_nat prec emax k) sr) = rnd (INR k / val sr) /\ 0 <= rnd (INR k / val sr).
Proof.
  intros K F S. destruct (of_nat_exact prec emax k K) as [Fk Vk].
  assert (Q : 0 <= INR k / val sr <= INR k).
  { pose proof (pos_INR k). split; [apply Rmult_le_pos; [auto|left; apply Rinv_0_lt_compat; lra]|]. apply Rmult_le_reg_r with (val sr); [lra|]. unfold Rdiv. rewrite Rmult_assoc, Rinv_l by lra. apply Rmult_le_compat_l; [apply pos_INR|exact S]. }
  assert (Rq : 0 <= rnd (INR k / val sr) <= INR k).
  { split; [apply (rnd_pos prec emax); lra|]. rewrite <- (rnd_id prec emax (INR k)) at 2 by (rewrite INR_IZR_INZ; apply (fmt_small prec emax); lia). apply (rnd_le prec emax). lra. }
  destruct (div_cases prec emax (of_nat prec emax k) sr Fk ltac:(lra)) as [[_ [V [G _]]]|[O _]]; rewrite Vk in *; [split; [exact G|split; [exact V|apply Rq]]|].
  exfalso. rewrite Rabs_pos_eq in O by lra. pose proof Hprec as P. unfold Prec_gt_0 in P.
  assert (INR k < bpow radix2 emax); [|lra]. apply Rle_lt_trans with (bpow radix2 prec); [|apply bpow_lt; exact Hmax]. rewrite INR_IZR_INZ, <- IZR_Zpower by lia. apply IZR_le. exact K.
Qed.
Theorem C138_duration l sr : (Z.of_nat (length l) <= 2 ^ prec)%Z -> finite sr -> 1 <= val sr ->
  finite (f_duration prec emax l sr) /\ val (f_duration prec emax l sr) = rnd (INR (length l) / val sr).
Proof. intros L F S. destruct (count_div (length l) sr L F S) as [A [B _]]. auto. Qed.

Lemma filter_le {A} (f : A -> bool) l : (length (filter f l) <= length l)%nat.
Proof. induction l as [|x l IH]; cbn; [lia|]. destruct (f x); cbn; lia. Qed.
(** The number of samples above the (rounded) product of the threshold and the largest magnitude, over
    the rate; at most the duration; nothing is above the full threshold. *)
Theorem C138_effective_duration l sr th : l <> [] -> all_finite l -> (Z.of_nat (length l) <= 2 ^ prec)%Z -> finite sr -> 1 <= val sr -> finite th -> 0 <= val th <= 1 ->
  exists r p, f_effective_duration prec emax l sr th = Ok r /\ In p l /\ (forall x, In x l -> Rabs (val x) <= Rabs (val p)) /\
    let k := louder (rnd (val th * Rabs (val p))) l in
    finite r /\ val r = rnd (INR k / val sr) /\ 0 <= val r <= val (f_duration prec emax l sr) /\ (val th = 1 -> k = 0%nat).
Proof.
  intros N A L F S Ft T. destruct (maxabs_finite prec emax l A N) as [p [P [E B]]].
  assert (Fp : finite (Babs p)). { unfold finite. rewrite is_finite_Babs. unfold all_finite in A. rewrite Forall_forall in A. apply A. exact P. }
  assert (Vp : val (Babs p) = Rabs (val p)) by apply B2R_Babs. pose proof (Rabs_pos (val p)) as Pp.
  assert (Rl : 0 <= rnd (val th * Rabs (val p)) <= Rabs (val p)).
  { split; [apply (rnd_pos prec emax); nra|]. rewrite <- (rnd_id prec emax (Rabs (val p))) at 2 by (rewrite <- Vp; apply (fmt_val prec emax)). apply (rnd_le prec emax). nra. }
  pose proof (val_bound prec emax p) as Bp.
  destruct (mul_cases prec emax th (Babs p) Ft Fp) as [[_ [Vl Fl]]|[O _]]; [|exfalso; rewrite Vp, Rabs_pos_eq in O by lra; lra].
  rewrite Vp in Vl. set (limit := mul th (Babs p)) in *.
  assert (Eq : filter (fun sample => flt prec emax limit (fabs prec emax sample)) l = filter (fun x => if Rlt_dec (rnd (val th * Rabs (val p))) (Rabs (val x)) then true else false) l).
  { clear -A Fl Vl. induction A as [|x l Fx A IH]; [reflexivity|]. cbn [filter]. rewrite IH.
    replace (flt prec emax limit (fabs prec emax x)) with (if Rlt_dec (rnd (val th * Rabs (val p))) (Rabs (val x)) then true else false); [reflexivity|].
    unfold flt, fabs. rewrite Bltb_correct by (auto; rewrite is_finite_Babs; exact Fx). change (B2R limit) with (val limit). rewrite Vl, B2R_Babs.
    destruct (Rlt_dec _ _); symmetry; [apply Rlt_bool_true; auto|apply Rlt_bool_false; lra]. }
  set (k := louder (rnd (val th * Rabs (val p))) l). exists (div (of_nat prec emax k) sr), p. split; [|split; [exact P|split; [exact B|]]].
  - unfold f_effective_duration. rewrite E. cbn [bind]. fold limit. rewrite Eq. reflexivity.
  - assert (Kl : (k <= length l)%nat) by (unfold k, louder; apply filter_le). destruct (count_div k sr ltac:(lia) F S) as [G1 [G2 G3]]. cbv zeta. split; [exact G1|]. split; [exact G2|]. split.
    + rewrite G2. split; [exact G3|]. destruct (C138_duration l sr L F S) as [_ ->]. apply (rnd_le prec emax). apply Rmult_le_compat_r; [left; apply Rinv_0_lt_compat; lra|]. apply le_INR. exact Kl.
    + intros T1. unfold k, louder. rewrite T1, Rmult_1_l, (rnd_id prec emax) by (rewrite <- Vp; apply (fmt_val prec emax)).
      clear -B. induction l as [|x l IH]; [reflexivity|]. cbn [filter]. destruct (Rlt_dec _ _) as [Q|Q]; [|apply IH; intros; apply B; right; auto]. specialize (B x (or_introl eq_refl)). lra.
Qed.

(** ** Crest factor *)
Lemma add_ge a y : nn prec emax a -> nn prec emax y -> lev a <= lev (add a y) /\ lev y <= lev (add a y).
Proof.
  intros A Y. destruct (add_nn prec emax a y A Y) as [N _]. destruct (nn_cases prec emax a A) as [->|[Fa Va]]; [|destruct (nn_cases prec emax y Y) as [->|[Fy Vy]]].
  - assert (E : add (B754_infinity false) y = B754_infinity false) by (destruct (nn_cases prec emax y Y) as [->|[Fy Vy]]; [reflexivity|destruct y as [?|?| |]; try discriminate Fy; reflexivity]).
    rewrite E. split; [lra|]. cbn. apply (level_bound prec emax).
  - assert (E : add a (B754_infinity false) = B754_infinity false) by (destruct a as [?|?| |]; try discriminate Fa; reflexivity). rewrite E. split; [|lra]. cbn. apply (level_bound prec emax).
  - destruct (add_cases prec emax a y Fa Fy) as [[_ [V F]]|[O [E S]]].
    + rewrite !level_fin by auto. rewrite V. split; [rewrite <- (rnd_id prec emax (val a)) at 1 by apply (fmt_val prec emax)|rewrite <- (rnd_id prec emax (val y)) at 1 by apply (fmt_val prec emax)]; apply (rnd_le prec emax); lra.
    + destruct (Bsign a) eqn:Sa.
      * exfalso. pose proof (proj1 (sign_val prec emax a Fa) Sa). pose proof (proj1 (sign_val prec emax y Fy) (eq_sym S)).
        replace (val a + val y) with 0 in O by lra. rewrite (rnd_0 prec emax), Rabs_R0 in O. pose proof (bpow_gt_0 radix2 emax). lra.
      * rewrite E. split; cbn; apply (level_bound prec emax).
Qed.
Lemma abs_nn x : finite x -> nn prec emax (fabs prec emax x).
Proof. intros F. apply nn_fin; [unfold fabs; rewrite is_finite_Babs; exact F|]. unfold fabs. rewrite B2R_Babs. apply Rabs_pos. Qed.
Lemma abs_sum_ge l : all_finite l -> forall a, nn prec emax a -> let s := fold_left (fun prev current => add prev (fabs prec emax current)) l a in
  nn prec emax s /\ lev a <= lev s /\ forall x, In x l -> Rabs (val x) <= lev s.
Proof.
  intros A. induction A as [|x l F A IH]; intros a Na; cbn [fold_left]; [split; [auto|split; [lra|intros ? []]]|].
  pose proof (abs_nn x F) as Nx. destruct (add_ge a (fabs prec emax x) Na Nx) as [G1 G2]. destruct (IH _ (add_nn prec emax _ _ Na Nx)) as [I1 [I2 I3]].
  split; [exact I1|]. split; [lra|]. intros y [<-|Y]; [|apply I3; auto].
  replace (Rabs (val x)) with (lev (fabs prec emax x)); [lra|]. rewrite level_fin by (unfold fabs; rewrite is_finite_Babs; exact F). unfold fabs. apply B2R_Babs.
Qed.
Lemma abs_sum_eq l : fold_left (fun prev current => add prev (fabs prec emax current)) l zero = f_sum prec emax (map (fabs prec emax) l).
Proof. unfold f_sum. generalize zero. induction l as [|x l IH]; intros a; cbn [map fold_left]; auto. Qed.
(** The share of the largest magnitude: not NaN, between 0 and 1, and when the sum of the magnitudes
    does not overflow, the rounded quotient of the maximum and that sum. *)
Theorem C138_crest l : all_finite l -> (exists x, In x l /\ val x <> 0) ->
  exists r p s, f_crest prec emax l = Ok r /\ In p l /\ (forall x, In x l -> Rabs (val x) <= Rabs (val p)) /\ finite r /\ 0 <= val r <= 1 /\
    ((val r = rnd (Rabs (val p) / s) /\ Rabs (s - abs_total l) <= ((1 + u) ^ (length l - 1) - 1) * abs_total l) \/
     (val r = 0 /\ IZR (2 ^ emax) <= (1 + u) ^ length l * abs_total l)).
Proof.
  intros A [x0 [X0 Z0]]. assert (N : l <> []) by (intros ->; destruct X0). destruct (maxabs_finite prec emax l A N) as [p [P [E B]]].
  assert (Fp : finite (Babs p)). { unfold finite. rewrite is_finite_Babs. unfold all_finite in A. rewrite Forall_forall in A. apply A. exact P. }
  assert (Vp : val (Babs p) = Rabs (val p)) by apply B2R_Babs.
  assert (Pp : 0 < Rabs (val p)) by (eapply Rlt_le_trans; [apply (Rabs_pos_lt _ Z0)|apply B; exact X0]).
  destruct (abs_sum_ge l A zero) as [S1 [_ S3]]; [split; [reflexivity|cbn; lra]|].
  unfold f_crest. rewrite E. cbn [bind]. set (s := fold_left _ l zero) in *. eexists. exists p, (val s). split; [reflexivity|]. split; [exact P|]. split; [exact B|].
  specialize (S3 p P). assert (AT : abs_total (map (fabs prec emax) l) = abs_total l /\ total (map (fabs prec emax) l) = abs_total l).
  { unfold abs_total, total. clear. induction l as [|x l [IH1 IH2]]; [split; reflexivity|]. cbn [map fold_right]. rewrite IH1, IH2. unfold fabs. rewrite !B2R_Babs, Rabs_Rabsolu. auto. }
  destruct AT as [AT1 AT2].
  destruct (nn_cases prec emax s S1) as [Ei|[Fs Vs]].
  - rewrite Ei. assert (D : div (Babs p) (B754_infinity false) = B754_zero false) by (destruct p as [?|?| |]; try discriminate Fp; reflexivity). rewrite D.
    split; [reflexivity|]. cbn [B2R]. split; [lra|]. right. split; [reflexivity|].
    destruct (Rle_lt_dec (IZR (2 ^ emax)) ((1 + u) ^ length l * abs_total l)) as [Q|Q]; [exact Q|]. exfalso.
    assert (F : finite (f_sum prec emax (map (fabs prec emax) l))).
    { apply C115_sum_finite; [|rewrite map_length, AT1; exact Q]. clear -A. induction A as [|x l F A IH]; constructor; auto. unfold finite, fabs. rewrite is_finite_Babs. exact F. }
    rewrite <- abs_sum_eq in F. fold s in F. rewrite Ei in F. discriminate F.
  - rewrite level_fin in S3 by exact Fs.
    assert (Q : 0 <= Rabs (val p) / val s <= 1).
    { split; [apply Rmult_le_pos; [lra|left; apply Rinv_0_lt_compat; lra]|]. apply Rmult_le_reg_r with (val s); [lra|]. unfold Rdiv. rewrite Rmult_assoc, Rinv_l by lra. lra. }
    assert (Rq : 0 <= rnd (Rabs (val p) / val s) <= 1).
    { split; [apply (rnd_pos prec emax); lra|]. rewrite <- (rnd_id prec emax 1) by apply (fmt_1 prec emax). apply (rnd_le prec emax). lra. }
    destruct (div_cases prec emax (Babs p) s Fp ltac:(lra)) as [[_ [V [G _]]]|[O _]]; rewrite Vp in *.
    + split; [exact G|]. rewrite V. split; [exact Rq|]. left. split; [reflexivity|].
      assert (Fs' : finite (f_sum prec emax (map (fabs prec emax) l))) by (rewrite <- abs_sum_eq; exact Fs).
      destruct (C115_sum_error prec emax _ Fs') as [_ Er]. rewrite <- abs_sum_eq in Er. fold s in Er. rewrite AT1, AT2, map_length in Er. exact Er.
    + exfalso. rewrite Rabs_pos_eq in O by lra. assert (1 < bpow radix2 emax); [|lra]. change 1 with (bpow radix2 0). apply bpow_lt. pose proof Hprec as P0. pose proof Hmax as M0. unfold Prec_gt_0, Prec_lt_emax in *. lia.
Qed.
(** Silence has none. *)
Theorem C138_crest_silence l : l <> [] -> all_finite l -> (forall x, In x l -> val x = 0) -> exists r, f_crest prec emax l = Ok r /\ nan r.
Proof.
  intros N A Z. destruct (maxabs_finite prec emax l A N) as [p [P [E B]]]. unfold f_crest. rewrite E. cbn [bind]. eexists. split; [reflexivity|].
  assert (Zz : forall x, In x l -> exists s, x = B754_zero s).
  { intros x X. unfold all_finite in A. rewrite Forall_forall in A. pose proof (A x X) as F. specialize (Z x X). destruct x as [s|s| |s m e H]; try discriminate F; [eauto|].
    exfalso. destruct (proj2 (val_nonzero prec emax (B754_finite s m e H)) ltac:(do 4 eexists; reflexivity)) as [_ Q]. auto. }
  destruct (Zz p P) as [sp ->]. assert (S : fold_left (fun prev current => add prev (fabs prec emax current)) l zero = zero).
  { clear -Zz. induction l as [|x l IH]; [reflexivity|]. cbn [fold_left]. destruct (Zz x (or_introl eq_refl)) as [s ->]. change (add zero (fabs prec emax (B754_zero s))) with zero. apply IH. intros; apply Zz; right; auto. }
  rewrite S. reflexivity.
Qed.

(** ** Roll-off *)
Lemma energy_step l x : f_energy prec emax (l ++ [x]) = add (f_energy prec emax l) (mul x x).
Proof. apply inner_snoc. Qed.
Lemma roll_loop_ok t : forall l limit, let k := froll_loop prec emax t (f_energy prec emax l) limit in
  (k <= length t)%nat /\ (forall j, (j < k)%nat -> le (f_energy prec emax (l ++ firstn j t)) limit) /\ ((k < length t)%nat -> ~ le (f_energy prec emax (l ++ firstn k t)) limit).
Proof.
  induction t as [|x t IH]; intros l limit; cbn [froll_loop length]; [split; [lia|split; [intros; lia|intros; lia]]|].
  destruct (Bleb (f_energy prec emax l) limit) eqn:E.
  - unfold f_square. rewrite <- energy_step. destruct (IH (l ++ [x]) limit) as [A [B C]]. set (k := froll_loop prec emax t (f_energy prec emax (l ++ [x])) limit) in *. split; [lia|]. split.
    + intros [|j] J; [cbn [firstn]; rewrite app_nil_r; exact E|]. cbn [firstn]. change (x :: firstn j t) with ([x] ++ firstn j t). rewrite app_assoc. apply B. lia.
    + intros K. cbn [firstn]. change (x :: firstn k t) with ([x] ++ firstn k t). rewrite app_assoc. apply C. lia.
  - split; [lia|]. split; [intros; lia|]. intros _. cbn [firstn]. rewrite app_nil_r. unfold le. rewrite E. discriminate.
Qed.
(** One less than the number of samples whose energy first exceeds the share, over the number of samples. *)
Theorem C138_rolloff l pct : l <> [] -> (Z.of_nat (length l) <= 2 ^ prec)%Z ->
  let limit := mul pct (f_energy prec emax l) in
  exists k, (k <= length l)%nat /\ (forall j, (j < k)%nat -> le (f_energy prec emax (firstn j l)) limit) /\ ((k < length l)%nat -> ~ le (f_energy prec emax (firstn k l)) limit) /\
    finite (f_rolloff prec emax l pct) /\ val (f_rolloff prec emax l pct) = rnd ((INR k - 1) / INR (length l)).
Proof.
  intros N L limit. destruct (roll_loop_ok l [] limit) as [A [B C]]. cbn [app] in *. change (f_energy prec emax []) with zero in *.
  set (k := froll_loop prec emax l zero limit) in *. exists k. split; [exact A|]. split; [exact B|]. split; [exact C|].
  unfold f_rolloff. fold limit. fold k. assert (Pl : (0 < length l)%nat) by (destruct l; [congruence|cbn; lia]).
  destruct (of_nat_exact prec emax (length l) L) as [Fn Vn]. destruct (of_Z_exact (Z.of_nat k - 1)) as [Fk Vk]; [lia|]. rewrite minus_IZR, <- INR_IZR_INZ in Vk.
  assert (Ln : 1 <= INR (length l)) by (apply (le_INR 1); lia). assert (Lk : 0 <= INR k <= INR (length l)) by (split; [apply pos_INR|apply le_INR; exact A]).
  assert (Q : -1 <= (INR k - 1) / INR (length l) <= 1).
  { split; apply Rmult_le_reg_r with (INR (length l)); try lra; unfold Rdiv; rewrite Rmult_assoc, Rinv_l by lra; lra. }
  assert (Rq : -1 <= rnd ((INR k - 1) / INR (length l)) <= 1).
  { assert (R1 : rnd 1 = 1) by (apply (rnd_id prec emax); apply (fmt_1 prec emax)). assert (R2 : rnd (-1) = -1) by (change (-1) with (- (1)); rewrite (rnd_opp prec emax), R1; reflexivity).
    split; [apply Rle_trans with (rnd (-1)); [lra|]|apply Rle_trans with (rnd 1); [|lra]]; apply (rnd_le prec emax); lra. }
  destruct (div_cases prec emax (ofz (Z.of_nat k - 1)) (of_nat prec emax (length l)) Fk) as [[_ [V [G _]]]|[O _]]; [rewrite Vn; lra|rewrite V, Vk, Vn; auto|].
  exfalso. rewrite Vk, Vn in O. assert (1 < bpow radix2 emax). { change 1 with (bpow radix2 0). apply bpow_lt. pose proof Hprec as P0. pose proof Hmax as M0. unfold Prec_gt_0, Prec_lt_emax in *. lia. }
  revert O. apply Rlt_not_le. apply Rle_lt_trans with 1; [|lra]. apply Rabs_le. lra.
Qed.
Lemma energy_mono l t : Forall (fun x : fl => is_nan x = false) (l ++ t) -> nn prec emax (f_energy prec emax l) /\ lev (f_energy prec emax l) <= lev (f_energy prec emax (l ++ t)).
Proof.
  induction t as [|x t IH] using rev_ind; intros A.
  - rewrite app_nil_r in *. split; [|lra]. apply inner_nn; auto. split; [reflexivity|cbn; lra].
  - rewrite app_assoc in A |- *. apply Forall_app in A. destruct A as [A X]. inversion X; subst. destruct (IH A) as [I1 I2]. split; [exact I1|].
    rewrite energy_step. eapply Rle_trans; [exact I2|]. apply add_ge; [apply inner_nn; auto; split; [reflexivity|cbn; lra]|apply sq_nn; auto].
Qed.
(** A share between 0 and 1 of an energy that does not overflow gives a value from 0 up; the whole energy
    gives the last position. *)
Theorem C138_rolloff_range l pct : l <> [] -> (Z.of_nat (length l) <= 2 ^ prec)%Z -> finite (f_energy prec emax l) -> finite pct -> 0 <= val pct <= 1 ->
  exists k, (1 <= k <= length l)%nat /\ (val pct = 1 -> k = length l) /\ val (f_rolloff prec emax l pct) = rnd ((INR k - 1) / INR (length l)).
Proof.
  intros N L Fe Fp Vp. destruct (C138_rolloff l pct N L) as [k [K1 [K2 [K3 [_ V]]]]]. assert (A : all_finite l) by (apply (C119_energy_error prec emax); exact Fe).
  assert (A' : Forall (fun x : fl => is_nan x = false) l) by (eapply Forall_impl; [|exact A]; intros x F; apply fin_not_nan; exact F).
  destruct (energy_mono l []) as [Ne _]; [rewrite app_nil_r; exact A'|]. destruct (nn_cases prec emax _ Ne) as [Q|[_ Ve]]; [rewrite Q in Fe; discriminate Fe|].
  set (e := f_energy prec emax l) in *. assert (Rl : 0 <= rnd (val pct * val e) <= val e).
  { split; [apply (rnd_pos prec emax); nra|]. rewrite <- (rnd_id prec emax (val e)) at 2 by apply (fmt_val prec emax). apply (rnd_le prec emax). nra. }
  pose proof (val_bound prec emax e) as Be. rewrite Rabs_pos_eq in Be by lra.
  destruct (mul_cases prec emax pct e Fp Fe) as [[_ [Vl Fl]]|[O _]]; [|exfalso; rewrite Rabs_pos_eq in O by lra; lra]. set (limit := mul pct e) in *.
  assert (Pl : (0 < length l)%nat) by (destruct l; [congruence|cbn; lia]).
  exists k. split; [|split; [|exact V]].
  - split; [|exact K1]. destruct k as [|k]; [|lia]. exfalso. apply (K3 ltac:(lia)). cbn [firstn]. change (f_energy prec emax []) with zero. apply le_iff. split; [reflexivity|]. split; [apply fin_not_nan; exact Fl|].
    rewrite (level_fin prec emax limit) by exact Fl. rewrite Vl. change (lev zero) with 0. lra.
  - intros P1. destruct (Nat.eq_dec k (length l)) as [|Nk]; auto. exfalso. apply (K3 ltac:(lia)). rewrite P1, Rmult_1_l in Vl. rewrite (rnd_id prec emax) in Vl by apply (fmt_val prec emax).
    destruct (energy_mono (firstn k l) (skipn k l)) as [[Nk1 _] Lk]; [rewrite firstn_skipn; exact A'|]. rewrite firstn_skipn in Lk. fold e in Lk.
    apply le_iff. split; [exact Nk1|]. split; [apply fin_not_nan; exact Fl|]. rewrite (level_fin prec emax limit) by exact Fl. rewrite Vl. rewrite (level_fin prec emax e) in Lk by exact Fe. exact Lk.
Qed.

(** ** Norm *)
(** The norm is the root of the sum of squares, to the last bit: the magnitude makes no difference. *)
Theorem C138_norm l : f_norm prec emax l = f_rssq prec emax l.
Proof.
  unfold f_norm, f_rssq, f_inner. f_equal. generalize zero. induction l as [|x l IH]; intros a; [reflexivity|]. cbn [fold_left]. unfold f_square.
  assert (E : mul (fabs prec emax x) (fabs prec emax x) = mul x x) by (destruct x as [s|s| |s m e H]; try destruct s; try reflexivity; apply B2SF_inj; unfold fmul, fabs, Bmult, Babs; rewrite !B2SF_SF2B; reflexivity). rewrite E. apply IH.
Qed.
End Format.

(** ** Long ranges *)
(** 1, -1, 1, -1, ... *)
Definition alternating (n : nat) : list float := map (fun i => if Nat.even i then sgl 1 else sgl (-1)) (seq 0 n).
Lemma alternating_crossings n : crossings (alternating n) = (n - 1)%nat.
Proof.
  unfold crossings. assert (L : length (alternating n) = n) by (unfold alternating; rewrite map_length, seq_length; reflexivity). rewrite L.
  assert (N : forall i, (i < n)%nat -> Bltb (nth i (alternating n) (B754_zero false)) (B754_zero false) = negb (Nat.even i)).
  { intros i I. unfold alternating. rewrite (nth_indep _ _ ((fun i => if Nat.even i then sgl 1 else sgl (-1)) 0%nat)) by (rewrite map_length, seq_length; exact I).
    rewrite (map_nth (fun i => if Nat.even i then sgl 1 else sgl (-1))), seq_nth by exact I. cbn [Nat.add]. destruct (Nat.even i); vm_compute; reflexivity. }
  assert (G : forall m, (forall i, In i m -> (S i < n)%nat) -> length (filter (fun i => negb (Bool.eqb (Bltb (nth i (alternating n) (B754_zero false)) (B754_zero false))
      (Bltb (nth (S i) (alternating n) (B754_zero false)) (B754_zero false)))) m) = length m).
  { induction m as [|i m IH]; intros B; [reflexivity|]. cbn [filter]. pose proof (B i (or_introl eq_refl)) as Bi. rewrite (N i), (N (S i)) by lia. rewrite Nat.even_succ, <- Nat.negb_even.
    destruct (Nat.even i); cbn [negb Bool.eqb length]; rewrite IH; auto; intros; apply B; right; auto. }
  rewrite G; [apply seq_length|]. intros i I. apply in_seq in I. lia.
Qed.
(** [float] stops counting at 2^24: a signal that changes sign at every one of 2^25 steps has rate 1/2. *)
Theorem C138_azcr_long_refuted :
  ~ (forall l : list float, (2 <= length l)%nat -> (Z.of_nat (length l) <= 2 ^ 26)%Z -> exists r, f_azcr 24 128 l = Ok r /\
       B2R r = round radix2 (FLT_exp (3 - 128 - 24) 24) ZnearestE (INR (crossings l) / INR (length l - 1))).
Proof.
  intros H. assert (N : exists n, Z.of_nat n = (2 ^ 25 + 1)%Z) by (exists (Z.to_nat (2 ^ 25 + 1)); apply Z2Nat.id; vm_compute; discriminate). destruct N as [n N].
  assert (L : length (alternating n) = n) by (unfold alternating; rewrite map_length, seq_length; reflexivity).
  assert (N2 : (2 <= n)%nat) by (apply Nat2Z.inj_le; rewrite N; vm_compute; discriminate).
  assert (P25 : INR (n - 1) = bpow radix2 25). { rewrite INR_IZR_INZ, Nat2Z.inj_sub by lia. rewrite N. replace (2 ^ 25 + 1 - Z.of_nat 1)%Z with (2 ^ 25)%Z by reflexivity. rewrite <- (IZR_Zpower radix2) by lia. reflexivity. }
  destruct (H (alternating n)) as [r [E V]]; [rewrite L; exact N2|rewrite L, N; vm_compute; discriminate|].
  destruct (C138_azcr_actual 24 128 (alternating n)) as [r' [E' [_ [_ V']]]]; [lia|rewrite L; exact N2|rewrite L, N; vm_compute; discriminate|].
  rewrite E in E'. injection E' as <-. rewrite V, L, alternating_crossings, P25 in V'. pose proof (bpow_gt_0 radix2 25) as B25.
  replace (Z.min (Z.of_nat (n - 1)) (2 ^ 24)) with (2 ^ 24)%Z in V' by (rewrite Nat2Z.inj_sub, N by lia; vm_compute; reflexivity).
  replace (bpow radix2 25 / bpow radix2 25) with 1 in V' by (field; lra).
  rewrite (rnd_id 24 128 (bpow radix2 25)) in V' by (apply (fmt_bpow 24 128); lia).
  replace (IZR (2 ^ 24) / bpow radix2 25) with (bpow radix2 (-1)) in V' by (cbn; lra).
  rewrite (rnd_id 24 128 1), (rnd_id 24 128 (bpow radix2 (-1))) in V' by (try apply (fmt_1 24 128); apply (fmt_bpow 24 128); lia).
  cbn in V'. lra.
Qed.
(** No share of an energy that overflows: the position is negative. *)
Theorem C138_rolloff_overflow_refuted :
  ~ (forall (l : list double) p, l <> [] -> all_finite l -> finite p -> le (dbl 0) p -> le p (dbl 1) -> le (dbl 0) (f_rolloff 53 1024 l p)).
Proof.
  intros H. specialize (H [large] (dbl 0) ltac:(discriminate) ltac:(repeat constructor) ltac:(vm_compute; reflexivity) ltac:(vm_compute; reflexivity) ltac:(vm_compute; reflexivity)).
  vm_compute in H. discriminate H.
Qed.
(** The share of the largest magnitude can be zero. *)
Theorem C138_crest_overflow_refuted : ~ (forall (l : list double) r, all_finite l -> f_crest 53 1024 l = Ok r -> (exists x, In x l /\ lt (dbl 0) x) -> lt (dbl 0) r).
Proof.
  intros H. specialize (H [top; top] _ ltac:(repeat constructor) eq_refl). assert (K : exists x, In x [top; top] /\ lt (dbl 0) x) by (exists top; split; [left; reflexivity|vm_compute; reflexivity]).
  specialize (H K). vm_compute in H. discriminate H.
Qed.
Example C138_example : let l := [ratio 1 10; ratio (-7) 3; ratio 22 7; dbl 0] in
  (2 <= length l)%nat /\ (Z.of_nat (length l) <= 2 ^ 53)%Z /\ all_finite l /\ crossings l = 2%nat /\ finite (f_energy 53 1024 l) /\ finite (ratio 9 10).
Proof. split; [cbn; lia|]. split; [vm_compute; discriminate|]. split; [repeat constructor|]. split; [vm_compute; reflexivity|]. split; vm_compute; reflexivity. Qed.
Print Assumptions C138_azcr_actual.
Print Assumptions C138_azcr_partial.
Print Assumptions C138_azcr_short.
Print Assumptions C138_duration.
Print Assumptions C138_effective_duration.
Print Assumptions C138_crest.
Print Assumptions C138_crest_silence.
Print Assumptions C138_rolloff.
Print Assumptions C138_rolloff_range.
Print Assumptions C138_norm.
Print Assumptions C138_azcr_long_refuted.
Print Assumptions C138_rolloff_overflow_refuted.
Print Assumptions C138_crest_overflow_refuted.
