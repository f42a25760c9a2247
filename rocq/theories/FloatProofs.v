(** Facts about the rounded operations of a binary format. *)
From Coq Require Import ZArith Reals List Bool Lia Lra Psatz.
From Flocq Require Import Core BinarySingleNaN Relative Plus_error.
From Verif Require Import Base FloatModel.
Import ListNotations.
Local Open Scope R_scope.

Section Format.
Context (prec emax : Z) {Hprec : Prec_gt_0 prec} {Hmax : Prec_lt_emax prec emax}.
Notation fl := (binary_float prec emax).
Notation rnd := (round radix2 (FLT_exp (3 - emax - prec) prec) ZnearestE).
Notation fmt := (generic_format radix2 (FLT_exp (3 - emax - prec) prec)).
Notation val := (@B2R prec emax).
Notation fin := (@is_finite prec emax).
Notation add := (fadd prec emax).
Notation sub := (fsub prec emax).
Notation mul := (fmul prec emax).
Notation div := (fdiv prec emax).
Notation sqr := (fsqrt prec emax).
Notation zero := (fzero prec emax).

#[local] Instance vexp : Valid_exp (FLT_exp (3 - emax - prec) prec) := FLT_exp_valid _ _.
Lemma fmt_val x : fmt (val x).
Proof. exact (generic_format_B2R prec emax x). Qed.
Lemma val_zero : val zero = 0. Proof. reflexivity. Qed.

Lemma overflow_inf (x : fl) s : B2SF x = binary_overflow prec emax mode_NE s -> x = B754_infinity s.
Proof. destruct x; cbn; intros H; inversion H; reflexivity. Qed.

(** Either no overflow and the rounded sum, or an infinity. *)
Lemma add_cases x y : fin x = true -> fin y = true ->
  (Rabs (rnd (val x + val y)) < bpow radix2 emax /\ val (add x y) = rnd (val x + val y) /\ fin (add x y) = true) \/
  (bpow radix2 emax <= Rabs (rnd (val x + val y)) /\ add x y = B754_infinity (Bsign x) /\ Bsign x = Bsign y).
Proof.
  intros Hx Hy. pose proof (Bplus_correct prec emax Hprec Hmax mode_NE x y Hx Hy) as H.
  destruct (Rlt_bool_spec (Rabs (round radix2 (SpecFloat.fexp prec emax) (round_mode mode_NE) (val x + val y))) (bpow radix2 emax)) as [L|L].
  - left. destruct H as [H1 [H2 _]]. split; [exact L|]. split; [exact H1|exact H2].
  - right. destruct H as [H1 H2]. split; [exact L|]. split; [apply overflow_inf; exact H1|exact H2].
Qed.
Lemma sub_cases x y : fin x = true -> fin y = true ->
  (Rabs (rnd (val x - val y)) < bpow radix2 emax /\ val (sub x y) = rnd (val x - val y) /\ fin (sub x y) = true) \/
  (bpow radix2 emax <= Rabs (rnd (val x - val y)) /\ sub x y = B754_infinity (Bsign x) /\ Bsign x = negb (Bsign y)).
Proof.
  intros Hx Hy. pose proof (Bminus_correct prec emax Hprec Hmax mode_NE x y Hx Hy) as H.
  destruct (Rlt_bool_spec (Rabs (round radix2 (SpecFloat.fexp prec emax) (round_mode mode_NE) (val x - val y))) (bpow radix2 emax)) as [L|L].
  - left. destruct H as [H1 [H2 _]]. split; [exact L|]. split; [exact H1|exact H2].
  - right. destruct H as [H1 H2]. split; [exact L|]. split; [apply overflow_inf; exact H1|exact H2].
Qed.
Lemma mul_cases x y : fin x = true -> fin y = true ->
  (Rabs (rnd (val x * val y)) < bpow radix2 emax /\ val (mul x y) = rnd (val x * val y) /\ fin (mul x y) = true) \/
  (bpow radix2 emax <= Rabs (rnd (val x * val y)) /\ mul x y = B754_infinity (xorb (Bsign x) (Bsign y))).
Proof.
  intros Hx Hy. pose proof (Bmult_correct prec emax Hprec Hmax mode_NE x y) as H.
  destruct (Rlt_bool_spec (Rabs (round radix2 (SpecFloat.fexp prec emax) (round_mode mode_NE) (val x * val y))) (bpow radix2 emax)) as [L|L].
  - left. destruct H as [H1 [H2 _]]. rewrite Hx, Hy in H2. split; [exact L|]. split; [exact H1|exact H2].
  - right. split; [exact L|]. apply overflow_inf; exact H.
Qed.
Lemma div_cases x y : fin x = true -> val y <> 0 ->
  (Rabs (rnd (val x / val y)) < bpow radix2 emax /\ val (div x y) = rnd (val x / val y) /\ fin (div x y) = true /\ (Bsign (div x y) = xorb (Bsign x) (Bsign y))) \/
  (bpow radix2 emax <= Rabs (rnd (val x / val y)) /\ div x y = B754_infinity (xorb (Bsign x) (Bsign y))).
Proof.
  intros Hx Hy. pose proof (Bdiv_correct prec emax Hprec Hmax mode_NE x y Hy) as H.
  destruct (Rlt_bool_spec (Rabs (round radix2 (SpecFloat.fexp prec emax) (round_mode mode_NE) (val x / val y))) (bpow radix2 emax)) as [L|L].
  - left. destruct H as [H1 [H2 H3]]. rewrite Hx in H2. split; [exact L|]. split; [exact H1|]. split; [exact H2|]. apply H3. clear - H2. destruct (Bdiv mode_NE x y); try reflexivity; discriminate H2.
  - right. split; [exact L|]. apply overflow_inf; exact H.
Qed.
(** A finite result comes from finite operands. *)
Lemma add_fin x y : fin (add x y) = true -> fin x = true /\ fin y = true /\ val (add x y) = rnd (val x + val y).
Proof.
  intros H. assert (F : fin x = true /\ fin y = true) by (destruct x as [?|[]| |], y as [?|[]| |]; cbn in H; try discriminate; auto).
  destruct F as [Fx Fy]. destruct (add_cases x y Fx Fy) as [[_ [E _]]|[_ [E _]]]; auto. rewrite E in H. discriminate.
Qed.
Lemma sub_fin x y : fin (sub x y) = true -> fin x = true /\ fin y = true /\ val (sub x y) = rnd (val x - val y).
Proof.
  intros H. assert (F : fin x = true /\ fin y = true) by (destruct x as [?|[]| |], y as [?|[]| |]; cbn in H; try discriminate; auto).
  destruct F as [Fx Fy]. destruct (sub_cases x y Fx Fy) as [[_ [E _]]|[_ [E _]]]; auto. rewrite E in H. discriminate.
Qed.
Lemma mul_fin x y : fin (mul x y) = true -> fin x = true /\ fin y = true /\ val (mul x y) = rnd (val x * val y).
Proof.
  intros H. assert (F : fin x = true /\ fin y = true) by (destruct x as [?|[]| |], y as [?|[]| |]; cbn in H; try discriminate; auto).
  destruct F as [Fx Fy]. destruct (mul_cases x y Fx Fy) as [[_ [E _]]|[_ E]]; auto. rewrite E in H. discriminate.
Qed.
Lemma val_nonzero (x : fl) : (fin x = true /\ val x <> 0) <-> exists s m e H, x = B754_finite s m e H.
Proof.
  split.
  - intros [F N]. destruct x as [s|s| |s m e H]; try discriminate; [elim N; reflexivity|]. eauto.
  - intros [s [m [e [H ->]]]]. split; [reflexivity|]. cbn. apply F2R_neq_0. cbn. destruct s; discriminate.
Qed.
Lemma div_fin x y : fin y = true -> fin (div x y) = true -> fin x = true /\ val y <> 0 /\ val (div x y) = rnd (val x / val y).
Proof.
  intros Fy H. assert (F : fin x = true /\ val y <> 0).
  { destruct y as [sy|sy| |sy my ey Hy]; try discriminate Fy.
    - destruct x as [?|?| |]; cbn in H; discriminate H.
    - split; [destruct x as [?|?| |]; cbn in H; try discriminate H; reflexivity|]. apply (val_nonzero (B754_finite sy my ey Hy)). eauto. }
  destruct F as [Fx Ny]. split; auto. split; auto. destruct (div_cases x y Fx Ny) as [[_ [E _]]|[_ E]]; auto. rewrite E in H. discriminate.
Qed.
(** Rounding *)
Lemma rnd_le x y : x <= y -> rnd x <= rnd y.
Proof. apply round_le; auto with typeclass_instances. Qed.
Lemma rnd_id x : fmt x -> rnd x = x.
Proof. apply round_generic; auto with typeclass_instances. Qed.
Lemma rnd_0 : rnd 0 = 0. Proof. apply round_0; auto with typeclass_instances. Qed.
Lemma rnd_opp x : rnd (- x) = - rnd x.
Proof. apply round_NE_opp. Qed.
Lemma rnd_pos x : 0 <= x -> 0 <= rnd x.
Proof. intros H. rewrite <- rnd_0. apply rnd_le; auto. Qed.
Lemma fmt_bpow e : (3 - emax - prec <= e)%Z -> fmt (bpow radix2 e).
Proof.
  intros H. apply generic_format_bpow. unfold FLT_exp. pose proof Hprec as P. unfold Prec_gt_0 in P. lia.
Qed.
Lemma fmt_1 : fmt 1.
Proof. change 1 with (bpow radix2 0). apply fmt_bpow. pose proof Hprec as P. pose proof Hmax as M. unfold Prec_gt_0, Prec_lt_emax in *. lia. Qed.

(** Unit roundoff. *)
Definition unit_roundoff : R := bpow radix2 (- prec).
Notation u := unit_roundoff.
Lemma u_pos : 0 < u. Proof. apply bpow_gt_0. Qed.
Lemma u_half : / 2 * bpow radix2 (- prec + 1) = u.
Proof. unfold unit_roundoff. rewrite bpow_plus. change (bpow radix2 1) with 2. field. Qed.
Lemma add_err x y : fmt x -> fmt y -> Rabs (rnd (x + y) - (x + y)) <= u * Rabs (x + y).
Proof.
  intros Hx Hy. destruct (FLT_plus_error_N_ex radix2 (3 - emax - prec) prec (fun z => negb (Z.even z)) x y Hx Hy) as [eps [He E]].
  rewrite E. replace ((x + y) * (1 + eps) - (x + y)) with (eps * (x + y)) by ring. rewrite Rabs_mult.
  apply Rmult_le_compat_r; [apply Rabs_pos|]. eapply Rle_trans; [exact He|]. eapply Rle_trans; [apply u_rod1pu_ro_le_u_ro|]. unfold u_ro. rewrite u_half. lra.
Qed.
(** Smallest subnormal. *)
Definition tiny : R := bpow radix2 (3 - emax - prec).
Lemma tiny_pos : 0 < tiny. Proof. apply bpow_gt_0. Qed.
Lemma rnd_err x : Rabs (rnd x - x) <= u * Rabs x + tiny / 2.
Proof.
  destruct (error_N_FLT radix2 (3 - emax - prec) prec Hprec (fun z => negb (Z.even z)) x) as [eps [eta [He [Ht [_ E]]]]].
  rewrite E. replace (x * (1 + eps) + eta - x) with (eps * x + eta) by ring. eapply Rle_trans; [apply Rabs_triang|]. rewrite Rabs_mult. rewrite u_half in He.
  apply Rplus_le_compat; [apply Rmult_le_compat_r; [apply Rabs_pos|auto]|unfold tiny; lra].
Qed.
(** Counts *)
Lemma of_Z_fin n : (0 <= n <= 2 ^ (emax - 1))%Z -> fin (of_Z prec emax n) = true /\ val (of_Z prec emax n) = rnd (IZR n).
Proof.
  intros H. unfold of_Z. pose proof (binary_normalize_correct prec emax Hprec Hmax mode_NE n 0 false) as C. cbv zeta in C.
  assert (E : F2R (Float radix2 n 0) = IZR n) by (unfold F2R; cbn; ring). rewrite E in C.
  assert (L : Rabs (rnd (IZR n)) < bpow radix2 emax).
  { pose proof Hprec as P. pose proof Hmax as M. unfold Prec_gt_0, Prec_lt_emax in *.
    rewrite Rabs_pos_eq by (apply rnd_pos; apply IZR_le; lia). apply Rle_lt_trans with (bpow radix2 (emax - 1)); [|apply bpow_lt; lia].
    rewrite <- (rnd_id (bpow radix2 (emax - 1))) by (apply fmt_bpow; lia). apply rnd_le. rewrite <- IZR_Zpower by lia. apply IZR_le. apply H. }
  rewrite Rlt_bool_true in C by exact L. destruct C as [C1 [C2 _]]. split; [exact C2|exact C1].
Qed.
Lemma fmt_small n : (Z.abs n <= 2 ^ prec)%Z -> fmt (IZR n).
Proof.
  intros H. pose proof Hprec as P. pose proof Hmax as M. unfold Prec_gt_0, Prec_lt_emax in *.
  destruct (Z.eq_dec (Z.abs n) (2 ^ prec)) as [Q|Q].
  - assert (B : fmt (bpow radix2 prec)) by (apply fmt_bpow; lia). rewrite <- IZR_Zpower in B by lia. change (Z.pow radix2 prec) with (2 ^ prec)%Z in B. rewrite <- Q in B.
    destruct (Z.abs_spec n) as [[_ A]|[_ A]]; rewrite A in B; auto. rewrite opp_IZR in B. apply generic_format_opp in B. rewrite Ropp_involutive in B. exact B.
  - apply generic_format_FLT. exists (Float radix2 n 0); [unfold F2R; cbn; ring|cbn [Fnum]|cbn [Fexp]; lia]. change (radix_val radix2) with 2%Z. lia.
Qed.
Lemma of_nat_pos n : (0 < n)%nat -> (Z.of_nat n <= 2 ^ (emax - 1))%Z -> fin (of_nat prec emax n) = true /\ 1 <= val (of_nat prec emax n).
Proof.
  intros H B. destruct (of_Z_fin (Z.of_nat n) ltac:(lia)) as [F V]. split; [exact F|]. unfold of_nat. rewrite V. rewrite <- (rnd_id 1) by apply fmt_1. apply rnd_le. apply IZR_le. lia.
Qed.
Lemma of_nat_exact n : (Z.of_nat n <= 2 ^ prec)%Z -> fin (of_nat prec emax n) = true /\ val (of_nat prec emax n) = INR n.
Proof.
  intros H. pose proof Hprec as P. pose proof Hmax as M. unfold Prec_gt_0, Prec_lt_emax in *.
  destruct (of_Z_fin (Z.of_nat n)) as [F V]; [split; [lia|]; etransitivity; [exact H|]; apply Z.pow_le_mono_r; lia|].
  split; [exact F|]. unfold of_nat. rewrite V, rnd_id by (apply fmt_small; lia). symmetry. apply INR_IZR_INZ.
Qed.

(** Order.  Infinities sit beyond every finite value. *)
Definition level (x : fl) : R := match x with B754_infinity s => if s then - bpow radix2 emax else bpow radix2 emax | _ => val x end.
Lemma level_fin (x : fl) : fin x = true -> level x = val x.
Proof. destruct x; try discriminate; reflexivity. Qed.
Lemma val_bound (x : fl) : Rabs (val x) < bpow radix2 emax.
Proof. apply abs_B2R_lt_emax. Qed.
Lemma level_bound (x : fl) : - bpow radix2 emax <= level x <= bpow radix2 emax.
Proof.
  pose proof (bpow_gt_0 radix2 emax). pose proof (val_bound x) as B. destruct x as [s|[]| |s m e H0]; cbn [level]; try lra;
  apply Rabs_def2 in B; lra.
Qed.
Lemma ltb_level (x y : fl) : is_nan x = false -> is_nan y = false -> Bltb x y = Rlt_bool (level x) (level y).
Proof.
  intros Nx Ny. pose proof (bpow_gt_0 radix2 emax) as P. pose proof (val_bound x) as Bx. pose proof (val_bound y) as By. apply Rabs_def2 in Bx, By.
  destruct (fin x) eqn:Fx, (fin y) eqn:Fy.
  - rewrite !level_fin by auto. apply Bltb_correct; auto.
  - destruct y as [?|[]| |]; try discriminate; rewrite (level_fin x Fx); cbn [level]; symmetry.
    + rewrite Rlt_bool_false by lra. destruct x as [?|[]| |[]]; try discriminate; reflexivity.
    + rewrite Rlt_bool_true by lra. destruct x as [?|[]| |[]]; try discriminate; reflexivity.
  - destruct x as [?|[]| |]; try discriminate; rewrite (level_fin y Fy); cbn [level]; symmetry.
    + rewrite Rlt_bool_true by lra. destruct y as [?|[]| |[]]; try discriminate; reflexivity.
    + rewrite Rlt_bool_false by lra. destruct y as [?|[]| |[]]; try discriminate; reflexivity.
  - destruct x as [?|[]| |]; try discriminate; destruct y as [?|[]| |]; try discriminate; cbn [level]; symmetry;
      first [rewrite Rlt_bool_true by lra; reflexivity|rewrite Rlt_bool_false by lra; reflexivity].
Qed.
Lemma leb_level (x y : fl) : is_nan x = false -> is_nan y = false -> Bleb x y = Rle_bool (level x) (level y).
Proof.
  intros Nx Ny. pose proof (bpow_gt_0 radix2 emax) as P. pose proof (val_bound x) as Bx. pose proof (val_bound y) as By. apply Rabs_def2 in Bx, By.
  destruct (fin x) eqn:Fx, (fin y) eqn:Fy.
  - rewrite !level_fin by auto. apply Bleb_correct; auto.
  - destruct y as [?|[]| |]; try discriminate; rewrite (level_fin x Fx); cbn [level]; symmetry.
    + rewrite Rle_bool_false by lra. destruct x as [?|[]| |[]]; try discriminate; reflexivity.
    + rewrite Rle_bool_true by lra. destruct x as [?|[]| |[]]; try discriminate; reflexivity.
  - destruct x as [?|[]| |]; try discriminate; rewrite (level_fin y Fy); cbn [level]; symmetry.
    + rewrite Rle_bool_true by lra. destruct y as [?|[]| |[]]; try discriminate; reflexivity.
    + rewrite Rle_bool_false by lra. destruct y as [?|[]| |[]]; try discriminate; reflexivity.
  - destruct x as [?|[]| |]; try discriminate; destruct y as [?|[]| |]; try discriminate; cbn [level]; symmetry;
      first [rewrite Rle_bool_true by lra; reflexivity|rewrite Rle_bool_false by lra; reflexivity].
Qed.
Lemma ltb_nan (x y : fl) : is_nan x = true \/ is_nan y = true -> Bltb x y = false.
Proof. intros [H|H]; [destruct x; try discriminate; reflexivity|destruct y; try discriminate; destruct x as [?|[]| |[]]; reflexivity]. Qed.
Lemma leb_nan (x y : fl) : is_nan x = true \/ is_nan y = true -> Bleb x y = false.
Proof. intros [H|H]; [destruct x; try discriminate; reflexivity|destruct y; try discriminate; destruct x as [?|[]| |[]]; reflexivity]. Qed.
Lemma leb_true (x y : fl) : Bleb x y = true <-> is_nan x = false /\ is_nan y = false /\ level x <= level y.
Proof.
  split.
  - intros H. destruct (is_nan x) eqn:Nx; [rewrite leb_nan in H by auto; discriminate|]. destruct (is_nan y) eqn:Ny; [rewrite leb_nan in H by auto; discriminate|].
    rewrite leb_level in H by auto. destruct (Rle_bool_spec (level x) (level y)); [auto|discriminate].
  - intros [Nx [Ny L]]. rewrite leb_level by auto. apply Rle_bool_true. exact L.
Qed.
Lemma ltb_true (x y : fl) : Bltb x y = true <-> is_nan x = false /\ is_nan y = false /\ level x < level y.
Proof.
  split.
  - intros H. destruct (is_nan x) eqn:Nx; [rewrite ltb_nan in H by auto; discriminate|]. destruct (is_nan y) eqn:Ny; [rewrite ltb_nan in H by auto; discriminate|].
    rewrite ltb_level in H by auto. destruct (Rlt_bool_spec (level x) (level y)); [auto|discriminate].
  - intros [Nx [Ny L]]. rewrite ltb_level by auto. apply Rlt_bool_true. exact L.
Qed.
Lemma ltb_false (x y : fl) : is_nan x = false -> is_nan y = false -> (Bltb x y = false <-> level y <= level x).
Proof.
  intros Nx Ny. rewrite ltb_level by auto. split; intros H.
  - destruct (Rlt_bool_spec (level x) (level y)); [discriminate|auto].
  - apply Rlt_bool_false. auto.
Qed.
Lemma fin_not_nan (x : fl) : fin x = true -> is_nan x = false.
Proof. destruct x; try discriminate; reflexivity. Qed.
End Format.
