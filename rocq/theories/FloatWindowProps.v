(** C132: the windows in floating point. *)
From Coq Require Import ZArith Reals List Bool Lia Lra Psatz.
From Flocq Require Import Core Relative BinarySingleNaN Sterbenz.
From Verif Require Import Base WindowModel WindowProps WindowSpec FloatModel FloatSpec FloatProofs FloatProps FloatOrderProps FloatClockProps FloatWindowModel.
Import ListNotations.
Local Open Scope R_scope.

Section Format.
Context (prec emax : Z) {Hprec : Prec_gt_0 prec} {Hmax : Prec_lt_emax prec emax}.
Notation fl := (binary_float prec emax).
Notation rnd := (round radix2 (FLT_exp (3 - emax - prec) prec) ZnearestE).
Notation fmt := (generic_format radix2 (FLT_exp (3 - emax - prec) prec)).
Notation val := (@B2R prec emax).
Notation u := (roundoff prec).
Notation eta := (smallest prec emax).
Notation zero := (fzero prec emax).
Notation ofz := (of_Z prec emax).
#[local] Instance vexp3 : Valid_exp (FLT_exp (3 - emax - prec) prec) := FLT_exp_valid _ _.

Lemma unit_facts : 0 < u <= / 2 /\ 0 < eta <= 2 * u /\ 4 <= bpow radix2 emax.
Proof.
  pose proof Hprec as P. pose proof Hmax as M. unfold Prec_gt_0, Prec_lt_emax in P, M.
  rewrite !(roundoff_u prec), !(smallest_tiny prec emax). unfold unit_roundoff, tiny.
  change (/ 2) with (bpow radix2 (-1)). replace (2 * bpow radix2 (- prec)) with (bpow radix2 (1 - prec)) by (replace (1 - prec)%Z with (1 + - prec)%Z by lia; rewrite bpow_plus; reflexivity).
  change 4 with (bpow radix2 2). repeat split; try apply bpow_gt_0; apply bpow_le; lia.
Qed.
Lemma round_err x : Rabs (rnd x - x) <= u * Rabs x + eta / 2.
Proof. rewrite (roundoff_u prec), (smallest_tiny prec emax). apply (rnd_err prec emax). Qed.
Lemma sum_err x y : fmt x -> fmt y -> Rabs (rnd (x + y) - (x + y)) <= u * Rabs (x + y).
Proof. rewrite (roundoff_u prec). apply (add_err prec emax). Qed.
Lemma int_value z : (Z.abs z <= 2 ^ prec)%Z -> finite (ofz z) /\ val (ofz z) = IZR z.
Proof.
  intros H. pose proof Hprec as P. pose proof Hmax as M. unfold Prec_gt_0, Prec_lt_emax in P, M.
  pose proof (binary_normalize_correct prec emax Hprec Hmax mode_NE z 0 false) as C. cbv zeta in C.
  assert (E : F2R (Float radix2 z 0) = IZR z) by (unfold F2R; cbn; ring). rewrite E in C.
  change (round radix2 (SpecFloat.fexp prec emax) (round_mode mode_NE) (IZR z)) with (rnd (IZR z)) in C.
  rewrite (rnd_id prec emax) in C by (apply (fmt_small prec emax); exact H). rewrite Rlt_bool_true in C.
  - destruct C as [C1 [C2 _]]. split; [exact C2|exact C1].
  - rewrite <- abs_IZR. apply Rle_lt_trans with (bpow radix2 prec); [|apply bpow_lt; lia]. rewrite <- (IZR_Zpower radix2) by lia. apply IZR_le. exact H.
Qed.
Lemma small_int z : (Z.abs z <= 2)%Z -> (Z.abs z <= 2 ^ prec)%Z.
Proof.
  intros H. pose proof Hprec as P. unfold Prec_gt_0 in P. assert (2 ^ 1 <= 2 ^ prec)%Z by (apply Z.pow_le_mono_r; lia). lia.
Qed.
(** Results between 0 and 2 do not overflow. *)
Lemma mul_small x y : finite x -> finite y -> Rabs (rnd (val x * val y)) <= 2 -> finite (fmul prec emax x y) /\ val (fmul prec emax x y) = rnd (val x * val y).
Proof.
  intros Fx Fy B. destruct unit_facts as [_ [_ T]]. destruct (mul_cases prec emax x y Fx Fy) as [[_ [V F]]|[O _]]; [split; assumption|lra].
Qed.
Lemma sub_small x y : finite x -> finite y -> Rabs (rnd (val x - val y)) <= 2 -> finite (fsub prec emax x y) /\ val (fsub prec emax x y) = rnd (val x - val y).
Proof.
  intros Fx Fy B. destruct unit_facts as [_ [_ T]]. destruct (sub_cases prec emax x y Fx Fy) as [[_ [V F]]|[O _]]; [split; assumption|lra].
Qed.
Lemma div_small x y : finite x -> val y <> 0 -> Rabs (rnd (val x / val y)) <= 2 -> finite (fdiv prec emax x y) /\ val (fdiv prec emax x y) = rnd (val x / val y).
Proof.
  intros Fx Fy B. destruct unit_facts as [_ [_ T]]. destruct (div_cases prec emax x y Fx Fy) as [[_ [V [F _]]]|[O _]]; [split; assumption|lra].
Qed.
Lemma rnd_unit x : 0 <= x <= 1 -> 0 <= rnd x <= 1.
Proof.
  intros H. split; [apply (rnd_pos prec emax); lra|]. apply Rle_trans with (rnd 1); [apply (rnd_le prec emax); lra|]. rewrite (rnd_id prec emax) by apply (fmt_1 prec emax). lra.
Qed.
Lemma rnd_unit_abs x : Rabs x <= 1 -> Rabs (rnd x) <= 1.
Proof. intros H. apply abs_round_le_generic; auto with typeclass_instances. apply (fmt_1 prec emax). Qed.
Lemma quotient_abs x y : 0 < y -> Rabs x <= y -> Rabs (x / y) <= 1.
Proof.
  intros Py H. unfold Rdiv. rewrite Rabs_mult. rewrite (Rabs_right (/ y)) by (apply Rle_ge, Rlt_le, Rinv_0_lt_compat; exact Py).
  apply Rmult_le_reg_r with y; [exact Py|]. rewrite Rmult_assoc, Rinv_l by lra. lra.
Qed.

(** ** Bartlett *)
(** A number just above a power of two (less than half a unit) rounds down to it. *)
Lemma round_down (e : Z) x : (2 <= prec)%Z -> (0 <= e <= 1)%Z -> x < bpow radix2 e * (1 + u) -> rnd x <= bpow radix2 e.
Proof.
  intros P2 He H. pose proof Hmax as M. unfold Prec_lt_emax in M.
  assert (G : fmt (bpow radix2 e)) by (apply (fmt_bpow prec emax); lia).
  apply round_N_le_midp; auto with typeclass_instances. rewrite succ_eq_pos by (apply bpow_ge_0). rewrite ulp_bpow.
  assert (E : bpow radix2 (FLT_exp (3 - emax - prec) prec (e + 1)) = 2 * (bpow radix2 e * u)).
  { rewrite (roundoff_u prec). unfold unit_roundoff. rewrite <- bpow_plus. transitivity (bpow radix2 1 * bpow radix2 (e + - prec)); [|reflexivity]. rewrite <- bpow_plus. f_equal. unfold FLT_exp. lia. }
  rewrite E. lra.
Qed.
Lemma inverse n : (2 <= n)%Z -> (2 * n <= 2 ^ prec)%Z -> exists d, Rabs d <= u / (1 + u) /\
  finite (fdiv prec emax (ofz 1) (ofz (n - 1))) /\ val (fdiv prec emax (ofz 1) (ofz (n - 1))) = / IZR (n - 1) * (1 + d).
Proof.
  intros H1 H2. destruct (int_value 1 (small_int 1 ltac:(lia))) as [F1 V1]. destruct (int_value (n - 1) ltac:(lia)) as [Fn Vn].
  assert (P : 1 <= IZR (n - 1)) by (apply IZR_le; lia). pose proof Hprec as Pp. pose proof Hmax as M. unfold Prec_gt_0, Prec_lt_emax in Pp, M.
  assert (I : 0 < / IZR (n - 1) <= 1) by (split; [apply Rinv_0_lt_compat; lra|]; rewrite <- Rinv_1; apply Rinv_le_contravar; lra).
  destruct (div_small (ofz 1) (ofz (n - 1)) F1) as [F V]; [rewrite Vn; apply Rgt_not_eq; lra| |].
  - rewrite V1, Vn. unfold Rdiv. rewrite Rmult_1_l. apply Rle_trans with 1; [|lra]. apply rnd_unit_abs. rewrite Rabs_right by lra. lra.
  - rewrite V1, Vn in V. unfold Rdiv in V. rewrite Rmult_1_l in V.
    destruct (relative_error_N_FLX'_ex radix2 prec Hprec (fun z => negb (Z.even z)) (/ IZR (n - 1))) as [d [Hd Ed]].
    exists d. split.
    + eapply Rle_trans; [exact Hd|]. unfold u_ro. right. assert (Q : / 2 * bpow radix2 (- prec + 1) = u).
      { rewrite (roundoff_u prec). unfold unit_roundoff. change (/ 2) with (bpow radix2 (-1)). rewrite <- bpow_plus. f_equal. lia. }
      rewrite Q. reflexivity.
    + split; [exact F|]. rewrite V, <- Ed. apply round_FLT_FLX. rewrite Rabs_right by lra.
      apply Rle_trans with (bpow radix2 (- (prec - 1))); [apply bpow_le; lia|]. rewrite bpow_opp, <- (IZR_Zpower radix2) by lia. apply Rinv_le_contravar; [lra|]. apply IZR_le.
      change (radix_val radix2) with 2%Z. replace (2 ^ prec)%Z with (2 * 2 ^ (prec - 1))%Z in H2 by (rewrite <- Z.pow_succ_r by lia; f_equal; lia). lia.
Qed.
Section Bartlett.
Variables (n : nat) (P2 : (2 <= prec)%Z) (N2 : (2 <= n)%nat) (Nb : (2 * Z.of_nat n <= 2 ^ prec)%Z).
Notation factor := (fdiv prec emax (ofz 1) (ofz (Z.of_nat n - 1))).
Lemma product i : (i < n)%nat -> let p := fmul prec emax (ofz (2 * Z.of_nat i)) factor in
  finite p /\ Rabs (val p - 2 * INR i / (INR n - 1)) <= 5 * u + eta / 2 /\ 0 <= val p <= 2 /\
  ((2 * Z.of_nat i <= Z.of_nat n - 1)%Z -> val p <= 1) /\ ((Z.of_nat n <= 2 * Z.of_nat i)%Z -> 1 <= val p).
Proof.
  intros Hi p. destruct unit_facts as [U [E T]]. destruct (inverse (Z.of_nat n) ltac:(lia) Nb) as [d [Hd [Ff Vf]]].
  destruct (int_value (2 * Z.of_nat i) ltac:(lia)) as [F2 V2]. rewrite minus_IZR, <- INR_IZR_INZ in Vf. rewrite mult_IZR, <- INR_IZR_INZ in V2. change (IZR 1) with 1 in Vf.
  assert (N1 : 1 <= INR n - 1) by (apply le_INR in N2; cbn [INR] in N2; lra).
  assert (I0 : 0 <= INR i <= INR n - 1) by (split; [apply pos_INR|]; assert (Q : (S i <= n)%nat) by lia; apply le_INR in Q; rewrite S_INR in Q; lra).
  assert (In : 0 < / (INR n - 1)) by (apply Rinv_0_lt_compat; lra).
  set (x := 2 * INR i / (INR n - 1)). assert (X : 0 <= x <= 2).
  { unfold x. split; [apply Rmult_le_pos; lra|]. apply Rmult_le_reg_r with (INR n - 1); [lra|]. unfold Rdiv. rewrite Rmult_assoc, Rinv_l by lra. lra. }
  assert (Ex : val (ofz (2 * Z.of_nat i)) * val factor = x * (1 + d)) by (rewrite V2, Vf; unfold x, Rdiv; ring).
  assert (U1 : u / (1 + u) < u).
  { apply Rmult_lt_reg_r with (1 + u); [lra|]. unfold Rdiv. rewrite Rmult_assoc, Rinv_l by lra. nra. }
  apply Rabs_le_inv in Hd.
  assert (Hi2 : rnd (x * (1 + d)) <= 2) by (apply (round_down 1); [exact P2|lia|]; change (bpow radix2 1) with 2; nra).
  assert (Lo : 0 <= rnd (x * (1 + d))) by (apply (rnd_pos prec emax); apply Rmult_le_pos; lra).
  destruct (mul_small (ofz (2 * Z.of_nat i)) factor F2 Ff) as [Fp Vp]; [rewrite Ex, Rabs_right; lra|]. fold p in Fp, Vp. rewrite Ex in Vp.
  split; [exact Fp|]. rewrite Vp. split; [|split; [split; assumption|split]].
  - pose proof (round_err (x * (1 + d))) as R0. rewrite (Rabs_right (x * (1 + d))) in R0 by (apply Rle_ge, Rmult_le_pos; lra). apply Rabs_le_inv in R0.
    assert (M1 : - (2 * u) <= x * d <= 2 * u) by nra. assert (M2 : u * (x * (1 + d)) <= 3 * u) by nra. apply Rabs_le. lra.
  - intros C. apply (round_down 0); [exact P2|lia|]. change (bpow radix2 0) with 1.
    assert (x <= 1); [|nra]. apply IZR_le in C. rewrite mult_IZR, minus_IZR, <- !INR_IZR_INZ in C. change (IZR 1) with 1 in C. unfold x. apply Rmult_le_reg_r with (INR n - 1); [lra|]. unfold Rdiv. rewrite Rmult_assoc, Rinv_l by lra. lra.
  - intros C. apply Rle_trans with (rnd 1); [rewrite (rnd_id prec emax) by apply (fmt_1 prec emax); lra|]. apply (rnd_le prec emax).
    apply IZR_le in C. rewrite mult_IZR, <- !INR_IZR_INZ in C.
    assert (L1 : 1 + / (INR n - 1) <= x).
    { unfold x. apply Rmult_le_reg_r with (INR n - 1); [lra|]. unfold Rdiv. rewrite Rmult_assoc, Rmult_plus_distr_r, Rinv_l by lra. lra. }
    assert (L2 : u * (1 + / (INR n - 1)) <= / (INR n - 1)).
    { apply Rmult_le_reg_r with (INR n - 1); [lra|]. rewrite Rinv_l, Rmult_assoc, Rmult_plus_distr_r, Rinv_l by lra.
      apply IZR_le in Nb. rewrite mult_IZR, <- INR_IZR_INZ in Nb. replace (IZR (2 ^ prec)) with (bpow radix2 prec) in Nb by (rewrite <- (IZR_Zpower radix2) by lia; reflexivity).
      assert (Ui : u * bpow radix2 prec = 1) by (rewrite (roundoff_u prec); unfold unit_roundoff; rewrite <- bpow_plus; replace (- prec + prec)%Z with 0%Z by lia; reflexivity). nra. }
    nra.
Qed.
End Bartlett.
Definition middle (n : nat) : nat := if Nat.even n then (n / 2)%nat else ((n + 1) / 2)%nat.
Lemma middle_spec n : (2 <= n)%nat -> (middle n <= n)%nat /\ (0 < middle n)%nat /\ forall i, (i < middle n -> 2 * i <= n - 1)%nat /\ (middle n <= i -> n <= 2 * i)%nat.
Proof.
  intros H. unfold middle. destruct (Nat.even n) eqn:E.
  - apply Nat.even_spec in E. destruct E as [k ->]. rewrite (Nat.mul_comm 2 k), Nat.div_mul by lia. repeat split; intros; lia.
  - assert (O : Nat.odd n = true) by (rewrite <- Nat.negb_even, E; reflexivity). apply Nat.odd_spec in O. destruct O as [k ->].
    replace (2 * k + 1 + 1)%nat with ((k + 1) * 2)%nat by lia. rewrite Nat.div_mul by lia. repeat split; intros; lia.
Qed.
Lemma bartlett_nth n i d : (2 <= n)%nat -> (i < n)%nat -> nth i (f_bartlett prec emax n) d =
  let p := fmul prec emax (ofz (2 * Z.of_nat i)) (fdiv prec emax (ofz 1) (ofz (Z.of_nat n - 1))) in
  if (i <? middle n)%nat then p else fsub prec emax (ofz 2) p.
Proof.
  intros N2 Hi. cbv zeta. destruct (middle_spec n N2) as [M0 _]. unfold f_bartlett. fold (middle n).
  set (f := fdiv prec emax (ofz 1) (ofz (Z.of_nat n - 1))). set (g1 := fun i0 => fmul prec emax (ofz (2 * Z.of_nat i0)) f).
  destruct (Nat.ltb_spec i (middle n)) as [L|L].
  - rewrite app_nth1 by (rewrite map_length, seq_length; exact L). rewrite (nth_indep _ d (g1 0%nat)) by (rewrite map_length, seq_length; exact L).
    rewrite map_nth, seq_nth by exact L. reflexivity.
  - rewrite app_nth2 by (rewrite map_length, seq_length; exact L). rewrite map_length, seq_length.
    rewrite (nth_indep _ d ((fun i0 => fsub prec emax (ofz 2) (fmul prec emax (ofz (2 * Z.of_nat i0)) f)) 0%nat)) by (rewrite map_length, seq_length; lia).
    rewrite (map_nth (fun i0 => fsub prec emax (ofz 2) (fmul prec emax (ofz (2 * Z.of_nat i0)) f))), seq_nth by lia. repeat f_equal. lia.
Qed.
(** Every value of a Bartlett window lies between 0 and 1 and is within seven roundings of the
    triangle; the first one is zero. *)
Theorem C132_bartlett n : (2 <= prec)%Z -> (2 <= n)%nat -> (2 * Z.of_nat n <= 2 ^ prec)%Z ->
  length (f_bartlett prec emax n) = n /\ val (nth 0 (f_bartlett prec emax n) B754_nan) = 0 /\
  forall i, (i < n)%nat -> let w := nth i (f_bartlett prec emax n) B754_nan in
    finite w /\ 0 <= val w <= 1 /\ Rabs (val w - WindowSpec.triangle ((INR n - 1) / 2) ((INR n - 1) / 2) i) <= 7 * u.
Proof.
  intros P2 N2 Nb. destruct (middle_spec n N2) as [M0 [M1 M2]]. destruct unit_facts as [U [E T]].
  assert (N1 : 1 <= INR n - 1) by (apply le_INR in N2; cbn [INR] in N2; lra).
  split; [unfold f_bartlett; fold (middle n); rewrite app_length, !map_length, !seq_length; lia|]. split.
  { rewrite bartlett_nth by lia. cbv zeta. destruct (Nat.ltb_spec 0 (middle n)); [|lia]. destruct (product n P2 N2 Nb 0 ltac:(lia)) as [_ [_ [B _]]].
    destruct (inverse (Z.of_nat n) ltac:(lia) Nb) as [d [_ [Ff _]]]. destruct (int_value 0 (small_int 0 ltac:(lia))) as [F0 V0].
    change (2 * Z.of_nat 0)%Z with 0%Z in *. assert (Z0 : rnd (val (ofz 0) * val (fdiv prec emax (ofz 1) (ofz (Z.of_nat n - 1)))) = 0) by (rewrite V0, Rmult_0_l; apply (rnd_0 prec emax)).
    destruct (mul_small (ofz 0) _ F0 Ff) as [_ V]; [rewrite Z0, Rabs_R0; lra|]. rewrite V. exact Z0. }
  intros i Hi. cbv zeta. rewrite bartlett_nth by assumption. cbv zeta. destruct (product n P2 N2 Nb i Hi) as [Fp [Ep [Bp [Bl Bh]]]].
  set (p := fmul prec emax (ofz (2 * Z.of_nat i)) (fdiv prec emax (ofz 1) (ofz (Z.of_nat n - 1)))) in *.
  set (x := 2 * INR i / (INR n - 1)) in *. apply Rabs_le_inv in Ep.
  assert (Tr : WindowSpec.triangle ((INR n - 1) / 2) ((INR n - 1) / 2) i = 1 - Rabs (x - 1)) by (unfold WindowSpec.triangle, x; do 2 f_equal; field; apply Rgt_not_eq; lra).
  assert (Xi : x * (INR n - 1) = 2 * INR i) by (unfold x; field; apply Rgt_not_eq; lra).
  rewrite Tr. destruct (Nat.ltb_spec i (middle n)) as [L|L].
  - destruct (M2 i) as [Q _]. specialize (Q L). specialize (Bl ltac:(lia)). split; [exact Fp|]. split; [lra|].
    assert (x <= 1) by (apply le_INR in Q; rewrite mult_INR, minus_INR in Q by lia; cbn [INR] in Q; nra). rewrite (Rabs_left1 (x - 1)) by lra. apply Rabs_le. lra.
  - destruct (M2 i) as [_ Q]. specialize (Q L). specialize (Bh ltac:(lia)). destruct (int_value 2 (small_int 2 ltac:(lia))) as [F2 V2].
    assert (St : rnd (2 - val p) = 2 - val p).
    { apply (rnd_id prec emax). apply sterbenz; auto with typeclass_instances; [rewrite <- V2; apply (fmt_val prec emax)|apply (fmt_val prec emax)|lra]. }
    destruct (sub_small (ofz 2) p F2 Fp) as [Fs Vs]; rewrite V2 in *; [rewrite St, Rabs_right; lra|]. rewrite St in Vs. split; [exact Fs|]. rewrite Vs. split; [lra|].
    assert (1 <= x) by (apply le_INR in Q; rewrite mult_INR in Q; cbn [INR] in Q; nra). rewrite (Rabs_right (x - 1)) by lra. apply Rabs_le. lra.
Qed.

(** ** Triangular *)
Lemma tri_nth (r d : fl) n : forall (a : fl) (z : Z) i, finite a -> val a = IZR z -> (- 2 ^ prec <= z)%Z -> (z + 2 * Z.of_nat n <= 2 ^ prec)%Z -> (i < n)%nat ->
  exists q, finite q /\ val q = IZR (z + 2 * Z.of_nat i) /\ nth i (ftri_loop prec emax n a r) d = fsub prec emax (ofz 1) (fabs prec emax (fdiv prec emax q r)).
Proof.
  induction n as [|n IH]; intros a z i Fa Va B1 B2 Hi; [lia|]. destruct i as [|i].
  - exists a. split; [exact Fa|]. rewrite Z.add_0_r. split; [exact Va|reflexivity].
  - cbn [ftri_loop nth]. destruct (int_value 2 (small_int 2 ltac:(lia))) as [F2 V2].
    assert (G : rnd (val a + val (ofz 2)) = IZR (z + 2)) by (rewrite Va, V2, <- plus_IZR; apply (rnd_id prec emax); apply (fmt_small prec emax); lia).
    destruct (add_cases prec emax a (ofz 2) Fa F2) as [[_ [V F]]|[O _]].
    + rewrite G in V. destruct (IH _ (z + 2)%Z i F V ltac:(lia) ltac:(lia) ltac:(lia)) as [q [Fq [Vq E]]]. exists q. split; [exact Fq|]. rewrite Vq. split; [f_equal; lia|exact E].
    + exfalso. rewrite G in O. pose proof Hprec as P. pose proof Hmax as M. unfold Prec_gt_0, Prec_lt_emax in P, M.
      assert (bpow radix2 prec < bpow radix2 emax) by (apply bpow_lt; lia). rewrite <- (IZR_Zpower radix2 prec) in H by lia. change (radix_val radix2) with 2%Z in H.
      assert (Rabs (IZR (z + 2)) <= IZR (2 ^ prec)); [|lra]. rewrite <- abs_IZR. apply IZR_le. lia.
Qed.
Lemma tri_length r n : forall a, length (ftri_loop prec emax n a r) = n.
Proof. induction n as [|n IH]; intros a; [reflexivity|]. cbn [ftri_loop length]. rewrite IH. reflexivity. Qed.
Lemma rem_value n : (1 <= n)%nat -> IZR (Z.of_nat n + ieee_remainder2 (Z.of_nat n)) = 2 * tri_half n /\ (INR n - 1) / 2 <= tri_half n /\ 0 < tri_half n /\
  (0 < Z.of_nat n + ieee_remainder2 (Z.of_nat n) <= Z.of_nat n + 1)%Z.
Proof.
  intros Hn. assert (N1 : 1 <= INR n) by (apply le_INR in Hn; cbn [INR] in Hn; lra).
  assert (Hr : INR n + IZR (ieee_remainder2 (Z.of_nat n)) = 2 * tri_half n /\ 0 < tri_half n /\ (INR n - 1) / 2 <= tri_half n <= (INR n + 1) / 2).
  { rewrite ieee_remainder2_val. unfold tri_half. pose proof (Nat.mod_upper_bound n 4 ltac:(lia)). destruct (n mod 4)%nat as [|[|[|[|k]]]] eqn:E; cbn [Nat.eqb]; cbn iota; try lia.
    - rewrite Rplus_0_r. lra.
    - lra.
    - rewrite Rplus_0_r. lra.
    - assert (3 <= n)%nat by (pose proof (Nat.mod_le n 4 ltac:(lia)); lia). apply le_INR in H0. cbn [INR] in H0. lra. }
  destruct Hr as [H1 [H2 H3]]. rewrite plus_IZR, <- INR_IZR_INZ. split; [exact H1|]. split; [lra|]. split; [exact H2|].
  split; [apply lt_IZR; rewrite plus_IZR, <- INR_IZR_INZ; lra|apply le_IZR; rewrite !plus_IZR, <- INR_IZR_INZ; lra].
Qed.
Lemma one_minus (x : fl) : finite x -> 0 <= val x <= 1 -> finite (fsub prec emax (ofz 1) x) /\ val (fsub prec emax (ofz 1) x) = rnd (1 - val x) /\
  0 <= val (fsub prec emax (ofz 1) x) <= 1 /\ Rabs (val (fsub prec emax (ofz 1) x) - (1 - val x)) <= u.
Proof.
  intros F B. destruct (int_value 1 (small_int 1 ltac:(lia))) as [F1 V1]. destruct unit_facts as [U _].
  pose proof (rnd_unit (1 - val x) ltac:(lra)) as Q.
  destruct (sub_small (ofz 1) x F1 F) as [Fs Vs]; rewrite V1 in *; [rewrite Rabs_right; lra|]. split; [exact Fs|]. split; [exact Vs|]. rewrite Vs. split; [exact Q|].
  pose proof (sum_err 1 (- val x) (fmt_1 prec emax) ltac:(apply generic_format_opp, (fmt_val prec emax))) as E. change (1 + - val x) with (1 - val x) in E.
  rewrite (Rabs_right (1 - val x)) in E by lra. eapply Rle_trans; [exact E|]. nra.
Qed.
Section Triangular.
Variables (n : nat) (N1 : (1 <= n)%nat) (Nb : (2 * Z.of_nat n <= 2 ^ prec)%Z).
Notation r := (ofz (Z.of_nat n + ieee_remainder2 (Z.of_nat n))).
Lemma tri_value i : (i < n)%nat -> let w := nth i (f_triangular prec emax n) B754_nan in let x := (INR i - (INR n - 1) / 2) / tri_half n in
  finite w /\ val w = rnd (1 - Rabs (rnd x)) /\ 0 <= val w <= 1 /\ Rabs (val w - (1 - Rabs x)) <= 3 * u.
Proof.
  intros Hi. cbv zeta. destruct unit_facts as [U [E T]]. destruct (rem_value n N1) as [R1 [R2 [R3 R4]]].
  destruct (int_value (- (Z.of_nat n - 1)) ltac:(lia)) as [Fi Vi]. destruct (int_value (Z.of_nat n + ieee_remainder2 (Z.of_nat n)) ltac:(lia)) as [Fr Vr]. rewrite R1 in Vr.
  unfold f_triangular. destruct (tri_nth r B754_nan n _ _ i Fi Vi ltac:(lia) ltac:(lia) Hi) as [q [Fq [Vq ->]]].
  set (x := (INR i - (INR n - 1) / 2) / tri_half n).
  assert (I0 : 0 <= INR i <= INR n - 1) by (split; [apply pos_INR|]; assert (Q : (S i <= n)%nat) by lia; apply le_INR in Q; rewrite S_INR in Q; lra).
  assert (Vq' : val q = 2 * (INR i - (INR n - 1) / 2)).
  { rewrite Vq, plus_IZR, opp_IZR, minus_IZR, mult_IZR, <- !INR_IZR_INZ. change (IZR 1) with 1. lra. }
  assert (X : val q / val r = x) by (rewrite Vq', Vr; unfold x; field; apply Rgt_not_eq; lra).
  assert (X1 : Rabs x <= 1) by (unfold x; apply quotient_abs; [lra|]; apply Rabs_le; lra).
  pose proof (rnd_unit_abs x X1) as X2.
  destruct (div_small q r Fq) as [Fd Vd]; [rewrite Vr; apply Rgt_not_eq; lra|rewrite X; lra|]. rewrite X in Vd.
  assert (Fa : finite (fabs prec emax (fdiv prec emax q r))) by (unfold fabs, finite; rewrite is_finite_Babs; exact Fd).
  assert (Va : val (fabs prec emax (fdiv prec emax q r)) = Rabs (rnd x)) by (unfold fabs; rewrite B2R_Babs, Vd; reflexivity).
  destruct (one_minus _ Fa) as [Fs [Vs [Bs Es]]]; [rewrite Va; split; [apply Rabs_pos|exact X2]|]. rewrite Va in Vs, Es.
  split; [exact Fs|]. split; [exact Vs|]. split; [exact Bs|].
  pose proof (round_err x) as D. assert (u * Rabs x <= u * 1) by (apply Rmult_le_compat_l; lra).
  pose proof (Rabs_triang_inv (rnd x) x) as T1. pose proof (Rabs_triang_inv x (rnd x)) as T2. rewrite (Rabs_minus_sym x (rnd x)) in T2. apply Rabs_le_inv in Es. apply Rabs_le. lra.
Qed.
End Triangular.
(** Every value of a triangular window lies between 0 and 1 and is within three roundings of the
    triangle; reading it backwards gives exactly the same values. *)
Theorem C132_triangular n : (1 <= n)%nat -> (2 * Z.of_nat n <= 2 ^ prec)%Z ->
  length (f_triangular prec emax n) = n /\ rev (map val (f_triangular prec emax n)) = map val (f_triangular prec emax n) /\
  forall i, (i < n)%nat -> let w := nth i (f_triangular prec emax n) B754_nan in
    finite w /\ 0 <= val w <= 1 /\ Rabs (val w - WindowSpec.triangle ((INR n - 1) / 2) (tri_half n) i) <= 3 * u.
Proof.
  intros N1 Nb. assert (L : length (f_triangular prec emax n) = n) by apply tri_length. split; [exact L|]. split.
  - apply (nth_ext _ _ 0 0); [rewrite rev_length; reflexivity|]. rewrite rev_length, map_length, L. intros i Hi.
    rewrite rev_nth by (rewrite map_length, L; exact Hi). rewrite map_length, L. change 0 with (val B754_nan). rewrite !map_nth.
    destruct (tri_value n N1 Nb i Hi) as [_ [V1 _]]. destruct (tri_value n N1 Nb (n - S i) ltac:(lia)) as [_ [V2 _]].
    destruct (rem_value n N1) as [_ [_ [H _]]]. rewrite V1, V2. replace ((INR (n - S i) - (INR n - 1) / 2) / tri_half n) with (- ((INR i - (INR n - 1) / 2) / tri_half n)).
    + rewrite (rnd_opp prec emax), Rabs_Ropp. reflexivity.
    + rewrite minus_INR, S_INR by lia. field. apply Rgt_not_eq. lra.
  - intros i Hi. cbv zeta. destruct (tri_value n N1 Nb i Hi) as [F [_ [B E]]]. split; [exact F|]. split; [exact B|exact E].
Qed.

(** ** Welch *)
Section Welch.
Variables (n : nat) (N2 : (2 <= n)%nat) (Nb : (2 * Z.of_nat n <= 2 ^ prec)%Z).
Lemma welch_value i : (i < n)%nat -> let w := nth i (f_welch prec emax n) B754_nan in let x := (INR i - INR (n / 2)) / INR (n / 2) in
  finite w /\ val w = rnd (1 - rnd (rnd x * rnd x)) /\ 0 <= val w <= 1 /\ Rabs (val w - (1 - x ^ 2)) <= 8 * u.
Proof.
  intros Hi. cbv zeta. destruct unit_facts as [U [E T]]. unfold f_welch. set (L := (n / 2)%nat).
  assert (L1 : (1 <= L)%nat) by (apply (Nat.div_le_mono 2 n 2); lia). assert (L2 : (2 * L <= n <= 2 * L + 1)%nat) by (pose proof (Nat.div_mod n 2 ltac:(lia)); pose proof (Nat.mod_upper_bound n 2 ltac:(lia)); unfold L; lia).
  set (g := fun i0 : nat => _). rewrite (nth_indep _ _ (g 0%nat)) by (rewrite map_length, seq_length; exact Hi). rewrite map_nth, seq_nth by exact Hi. cbn [Nat.add]. unfold g. clear g.
  destruct (int_value (Z.of_nat L) ltac:(lia)) as [FL VL]. destruct (int_value (Z.of_nat i) ltac:(lia)) as [Fi Vi]. rewrite <- INR_IZR_INZ in VL, Vi.
  set (x := (INR i - INR L) / INR L).
  assert (LL : 1 <= INR L) by (apply le_INR in L1; exact L1).
  assert (I0 : - INR L <= INR i - INR L <= INR L).
  { pose proof (pos_INR i). assert (Q : (i <= 2 * L)%nat) by lia. apply le_INR in Q. rewrite mult_INR in Q. cbn [INR] in Q. lra. }
  assert (G : rnd (INR i - INR L) = INR i - INR L).
  { apply (rnd_id prec emax). rewrite !INR_IZR_INZ, <- minus_IZR. apply (fmt_small prec emax). lia. }
  destruct (sub_cases prec emax (ofz (Z.of_nat i)) (ofz (Z.of_nat L)) Fi FL) as [[_ [Vs Fs]]|[O _]].
  2:{ exfalso. rewrite Vi, VL, G in O. pose proof (val_bound prec emax (ofz (Z.of_nat L))) as B. rewrite VL, Rabs_right in B by lra. apply Rabs_le in I0. lra. }
  rewrite Vi, VL, G in Vs. set (s := fsub prec emax (ofz (Z.of_nat i)) (ofz (Z.of_nat L))) in *.
  assert (X1 : Rabs x <= 1) by (unfold x; apply quotient_abs; [lra|]; apply Rabs_le; lra).
  pose proof (rnd_unit_abs x X1) as X2.
  destruct (div_small s (ofz (Z.of_nat L)) Fs) as [Fq Vq]; [rewrite VL; apply Rgt_not_eq; lra|rewrite Vs, VL; fold x; lra|]. rewrite Vs, VL in Vq. fold x in Vq.
  set (q := fdiv prec emax s (ofz (Z.of_nat L))) in *. apply Rabs_le_inv in X1. pose proof X2 as X2'. apply Rabs_le_inv in X2.
  assert (Sq : 0 <= rnd x * rnd x <= 1) by nra. pose proof (rnd_unit _ Sq) as Sr.
  destruct (mul_small q q Fq Fq) as [Fm Vm]; rewrite Vq in *; [rewrite Rabs_right; lra|].
  destruct (one_minus _ Fm) as [Fw [Vw [Bw Ew]]]; [rewrite Vm; exact Sr|]. rewrite Vm in Vw, Ew.
  split; [exact Fw|]. split; [exact Vw|]. split; [exact Bw|].
  pose proof (round_err x) as D1. assert (u * Rabs x <= u * 1) by (apply Rmult_le_compat_l; [lra|apply Rabs_le; lra]).
  pose proof (round_err (rnd x * rnd x)) as D2. rewrite (Rabs_right (rnd x * rnd x)) in D2 by lra.
  assert (M2 : u * (rnd x * rnd x) <= u * 1) by (apply Rmult_le_compat_l; lra).
  assert (D3 : Rabs (rnd x * rnd x - x * x) <= 2 * (u + eta / 2)).
  { replace (rnd x * rnd x - x * x) with ((rnd x + x) * (rnd x - x)) by ring. rewrite Rabs_mult. apply Rmult_le_compat; try apply Rabs_pos; [apply Rabs_le; lra|lra]. }
  replace (x ^ 2) with (x * x) by ring. apply Rabs_le_inv in D2, D3, Ew. apply Rabs_le. lra.
Qed.
End Welch.
(** Every value of a Welch window lies between 0 and 1 and is within eight roundings of the parabola
    that the code computes; an odd one reads exactly the same backwards. *)
Theorem C132_welch n : (2 <= n)%nat -> (2 * Z.of_nat n <= 2 ^ prec)%Z ->
  length (f_welch prec emax n) = n /\ (Nat.Odd n -> rev (map val (f_welch prec emax n)) = map val (f_welch prec emax n)) /\
  forall i, (i < n)%nat -> let w := nth i (f_welch prec emax n) B754_nan in
    finite w /\ 0 <= val w <= 1 /\ Rabs (val w - parabola (INR (n / 2)) (INR (n / 2)) i) <= 8 * u.
Proof.
  intros N2 Nb. assert (L : length (f_welch prec emax n) = n) by (unfold f_welch; rewrite map_length, seq_length; reflexivity). split; [exact L|]. split.
  - intros [k Hk]. apply (nth_ext _ _ 0 0); [rewrite rev_length; reflexivity|]. rewrite rev_length, map_length, L. intros i Hi.
    rewrite rev_nth by (rewrite map_length, L; exact Hi). rewrite map_length, L. change 0 with (val B754_nan). rewrite !map_nth.
    destruct (welch_value n N2 Nb i Hi) as [_ [V1 _]]. destruct (welch_value n N2 Nb (n - S i) ltac:(lia)) as [_ [V2 _]].
    assert (K : (n / 2)%nat = k) by (subst n; rewrite Nat.add_comm, Nat.mul_comm, Nat.div_add by lia; reflexivity). rewrite K in V1, V2.
    assert (K1 : 1 <= INR k) by (assert (Q : (1 <= k)%nat) by lia; apply le_INR in Q; exact Q).
    rewrite V1, V2. replace ((INR (n - S i) - INR k) / INR k) with (- ((INR i - INR k) / INR k)).
    + rewrite (rnd_opp prec emax). do 3 f_equal. ring.
    + rewrite minus_INR, S_INR by lia. rewrite Hk, plus_INR, mult_INR. cbn [INR]. field. apply Rgt_not_eq. lra.
  - intros i Hi. cbv zeta. destruct (welch_value n N2 Nb i Hi) as [F [_ [B E]]]. split; [exact F|]. split; [exact B|exact E].
Qed.
(** One sample of Bartlett or Welch is not a number. *)
Theorem C132_single_actual : f_bartlett prec emax 1 = [B754_nan] /\ f_welch prec emax 1 = [B754_nan].
Proof.
  destruct (int_value 1 (small_int 1 ltac:(lia))) as [F1 V1].
  assert (Z0 : ofz 0 = B754_zero false) by reflexivity.
  unfold f_bartlett, f_welch. change (1 / 2)%nat with 0%nat. change ((1 + 1) / 2)%nat with 1%nat. cbn [Nat.even seq map app Nat.sub Z.of_nat]. change (1 - 1)%Z with 0%Z. change (2 * 0)%Z with 0%Z. change (Z.pos (Pos.of_succ_nat 0) - 1)%Z with 0%Z. rewrite Z0. split.
  - destruct (ofz 1) as [s|s| |s m e B]; try discriminate F1; [cbn in V1; lra|]. reflexivity.
  - destruct (ofz 1) as [s|s| |s m e B]; reflexivity.
Qed.
End Format.

(** Unlike over the reals (C31), the two halves of a Bartlett window differ, already for four points,
    and the last value need not be zero. *)
Theorem C132_bartlett_symmetric_refuted :
  ~ (forall n, (2 <= n)%nat -> (2 * Z.of_nat n <= 2 ^ 53)%Z -> rev (map B2R (f_bartlett 53 1024 n)) = map B2R (f_bartlett 53 1024 n)).
Proof.
  intros H. specialize (H 4%nat ltac:(lia) ltac:(vm_compute; discriminate)). apply (f_equal (fun l => nth 1 l 0)) in H.
  rewrite rev_nth in H by (rewrite map_length; cbn; lia). rewrite map_length in H. change (length (f_bartlett 53 1024 4)) with 4%nat in H. cbn [Nat.sub] in H.
  change 0 with (B2R (B754_nan : double)) in H. rewrite !map_nth in H.
  destruct (sf_val (nth 2 (f_bartlett 53 1024 4) B754_nan) 6004799503160662 (-53)) as [_ A]; [vm_compute; reflexivity|].
  destruct (sf_val (nth 1 (f_bartlett 53 1024 4) B754_nan) 6004799503160661 (-53)) as [_ B]; [vm_compute; reflexivity|].
  rewrite A, B in H. pose proof (bpow_gt_0 radix2 (-53)) as P. apply Rmult_eq_reg_r in H; [|lra]. apply eq_IZR in H. discriminate H.
Qed.
Theorem C132_bartlett_end_refuted :
  ~ (forall n, (2 <= n)%nat -> (2 * Z.of_nat n <= 2 ^ 53)%Z -> B2R (nth (n - 1) (f_bartlett 53 1024 n) B754_nan) = 0).
Proof.
  intros H. specialize (H 50%nat ltac:(lia) ltac:(vm_compute; discriminate)).
  destruct (sf_val (nth (50 - 1) (f_bartlett 53 1024 50) B754_nan) 4503599627370496 (-104)) as [_ A]; [vm_compute; reflexivity|].
  rewrite A in H. pose proof (bpow_gt_0 radix2 (-104)) as P. lra.
Qed.
Example C132_example : (2 <= 53)%Z /\ (2 * Z.of_nat 1024 <= 2 ^ 24)%Z /\ (2 * Z.of_nat 1000 <= 2 ^ 53)%Z /\ (2 <= 1000)%nat /\
  map B2SF (f_triangular 24 128 4) = map B2SF [fdiv 24 128 (sgl 1) (sgl 4); fdiv 24 128 (sgl 3) (sgl 4); fdiv 24 128 (sgl 3) (sgl 4); fdiv 24 128 (sgl 1) (sgl 4)] /\
  map B2SF (f_welch 24 128 5) = map B2SF [sgl 0; fdiv 24 128 (sgl 3) (sgl 4); sgl 1; fdiv 24 128 (sgl 3) (sgl 4); sgl 0] /\
  map B2SF (f_bartlett 24 128 5) = map B2SF [sgl 0; fdiv 24 128 (sgl 1) (sgl 2); sgl 1; fdiv 24 128 (sgl 1) (sgl 2); sgl 0].
Proof. split; [lia|]. split; [vm_compute; discriminate|]. split; [vm_compute; discriminate|]. split; [lia|]. repeat split; vm_compute; reflexivity. Qed.
Print Assumptions C132_bartlett.
Print Assumptions C132_triangular.
Print Assumptions C132_welch.
Print Assumptions C132_single_actual.
Print Assumptions C132_bartlett_symmetric_refuted.
Print Assumptions C132_bartlett_end_refuted.
