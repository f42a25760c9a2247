(** Theorems C26-C29, C71: integer predicates and classification. *)
From Coq Require Import Floats.SpecFloat Znumtheory.
From Verif Require Import RealBase RealBaseProofs AlgModel AlgSpec AlgProofs NumModel.
Local Open Scope Z_scope.

Lemma to_int32_small z : int32_min <= z <= int32_max -> to_int32 z = z.
Proof. unfold to_int32, int32_min, int32_max. intros. rewrite Z.mod_small; lia. Qed.
Lemma int32_op_ok z : int32_min <= z <= int32_max -> int32_op z = Ok z.
Proof. unfold int32_op. intros [H1 H2]. apply Z.leb_le in H1, H2. rewrite H1, H2. reflexivity. Qed.

(** *** Powers of two *)
Lemma land_pred_pow k : 0 <= k -> Z.land (2 ^ k) (2 ^ k - 1) = 0.
Proof.
  intros H. replace (2 ^ k - 1) with (Z.ones k) by (rewrite Z.ones_equiv; lia).
  rewrite Z.land_ones by auto. apply Z.mod_same. apply Z.pow_nonzero; lia.
Qed.
Lemma land_pred_zero z : 0 < z -> Z.land z (z - 1) = 0 -> z = 2 ^ Z.log2 z.
Proof.
  intros Hz E. destruct (Z.eq_dec z (2 ^ Z.log2 z)) as [|N]; auto. exfalso.
  pose proof (Z.log2_spec z Hz) as [L1 L2]. pose proof (Z.log2_nonneg z).
  assert (B : Z.log2 (z - 1) = Z.log2 z) by (apply Z.log2_unique; lia).
  assert (T1 : Z.testbit z (Z.log2 z) = true) by (apply Z.bit_log2; auto).
  assert (P : 0 < 2 ^ Z.log2 z) by (apply Z.pow_pos_nonneg; lia).
  assert (T2 : Z.testbit (z - 1) (Z.log2 z) = true) by (rewrite <- B; apply Z.bit_log2; lia).
  assert (T : Z.testbit (Z.land z (z - 1)) (Z.log2 z) = true) by (rewrite Z.land_spec, T1, T2; reflexivity).
  rewrite E, Z.testbit_0_l in T. discriminate.
Qed.
Lemma land_pred_neg z : int32_min < z < 0 -> Z.land z (z - 1) <> 0.
Proof. intros H E. assert (Z.land z (z - 1) < 0) by (apply Z.land_neg; lia). lia. Qed.

Theorem C26_is_power_two x : int32_min < x <= int32_max ->
  exists b, is_power_two x = Ok b /\ (b = true <-> exists k, 0 <= k /\ x = 2 ^ k).
Proof.
  intros H. unfold is_power_two. rewrite to_int32_small by lia. destruct (Z.eqb_spec x 0) as [->|N].
  - exists false. split; auto. split; [discriminate|]. intros [k [K E]]. pose proof (Z.pow_pos_nonneg 2 k). lia.
  - rewrite int32_op_ok by (unfold int32_min, int32_max in *; lia). cbn [bind]. eexists. split; [reflexivity|].
    destruct (Z_lt_le_dec x 0) as [Hn|Hp].
    + pose proof (land_pred_neg x ltac:(lia)). destruct (Z.eqb_spec (Z.land x (x - 1)) 0); [contradiction|]. split; [discriminate|].
      intros [k [K E]]. pose proof (Z.pow_pos_nonneg 2 k). lia.
    + destruct (Z.eqb_spec (Z.land x (x - 1)) 0) as [E|E]; split; auto; try discriminate.
      * intros _. exists (Z.log2 x). split; [apply Z.log2_nonneg|apply land_pred_zero; lia].
      * intros [k [K ->]]. exfalso. apply E. apply land_pred_pow; auto.
Qed.
(** INT32_MIN itself overflows; wider values are truncated first, so 2^32 is not recognised and
    2^32 + 1 is. *)
Theorem C26_is_power_two_boundaries :
  is_power_two int32_min = UB /\ is_power_two (2 ^ 32) = Ok false /\ is_power_two (2 ^ 32 + 1) = Ok true.
Proof. repeat split; reflexivity. Qed.

(** *** The bit smear *)
Definition window (k : Z) (x y : Z) : Prop := forall i, 0 <= i -> (Z.testbit y i = true <-> exists j, i <= j < i + k /\ Z.testbit x j = true).
Lemma window_step k x y : 0 < k -> window k x y -> window (2 * k) x (smear_step y k).
Proof.
  intros Hk W i Hi. unfold smear_step. rewrite Z.lor_spec, Z.shiftr_spec by auto. rewrite Bool.orb_true_iff. rewrite (W i Hi), (W (i + k) ltac:(lia)). split.
  - intros [[j [J T]]|[j [J T]]]; exists j; split; auto; lia.
  - intros [j [J T]]. destruct (Z_lt_le_dec j (i + k)); [left|right]; exists j; split; auto; lia.
Qed.
Lemma smear_ones y : 0 < y < 2 ^ 32 -> smear y = 2 ^ (Z.log2 y + 1) - 1.
Proof.
  intros H. assert (W : window 32 y (smear y)).
  { unfold smear. change 32 with (2 * 16). apply window_step; [lia|]. change 16 with (2 * 8). apply window_step; [lia|]. change 8 with (2 * 4). apply window_step; [lia|].
    change 4 with (2 * 2). apply window_step; [lia|]. change 2 with (2 * 1). apply window_step; [lia|]. intros i Hi. split; [intros T; exists i; split; auto; lia|].
    intros [j [J T]]. replace i with j by lia. auto. }
  assert (L : Z.log2 y <= 31) by (assert (Z.log2 y < 32); [apply Z.log2_lt_pow2; lia|lia]). pose proof (Z.log2_nonneg y).
  replace (2 ^ (Z.log2 y + 1) - 1) with (Z.ones (Z.log2 y + 1)) by (rewrite Z.ones_equiv; lia).
  apply Z.bits_inj'. intros i Hi. destruct (Z_lt_le_dec i (Z.log2 y + 1)) as [Lt|Ge].
  - rewrite Z.ones_spec_low by lia. apply W; auto. exists (Z.log2 y). split; [lia|]. apply Z.bit_log2; lia.
  - rewrite Z.ones_spec_high by lia. destruct (Z.testbit (smear y) i) eqn:T; auto. apply W in T as [j [J T]]; auto.
    rewrite Z.bits_above_log2 in T by lia. discriminate.
Qed.

Theorem C27_next_power_two x : 1 <= x <= 2 ^ 30 -> exists k, 0 <= k /\ next_power_two x = Ok (2 ^ k) /\ x <= 2 ^ k /\
  (forall j, 0 <= j -> x <= 2 ^ j -> 2 ^ k <= 2 ^ j).
Proof.
  intros H. unfold next_power_two. destruct (Z.ltb_spec x 0); [lia|].
  destruct (C26_is_power_two x ltac:(unfold int32_min, int32_max; lia)) as [b [E B]]. rewrite E. cbn [bind]. destruct b.
  - destruct (proj1 B eq_refl) as [k [K ->]]. exists k. split; auto. split; auto. split; [lia|]. auto.
  - rewrite to_int32_small by (unfold int32_min, int32_max; lia). rewrite int32_op_ok by (unfold int32_min, int32_max; lia). cbn [bind].
    assert (Hx : x <> 1) by (intros ->; assert (false = true) by (apply B; exists 0; split; [lia|reflexivity]); discriminate).
    rewrite smear_ones by lia. set (k := Z.log2 (x - 1) + 1). replace (2 ^ k - 1 + 1) with (2 ^ k) by lia.
    pose proof (Z.log2_spec (x - 1) ltac:(lia)) as [L1 L2]. pose proof (Z.log2_nonneg (x - 1)). fold (Z.succ (Z.log2 (x - 1))) in *.
    assert (L30 : Z.log2 (x - 1) < 30) by (apply Z.log2_lt_pow2; lia).
    assert (P30 : 2 ^ k <= 2 ^ 30) by (apply Z.pow_le_mono_r; unfold k; lia).
    exists k. split; [unfold k; lia|]. split; [apply int32_op_ok; unfold int32_min, int32_max; split; [assert (0 < 2 ^ k) by (apply Z.pow_pos_nonneg; unfold k; lia); lia|lia]|].
    split; [unfold k; rewrite <- Z.add_1_r in L2; lia|]. intros j Hj HJ. apply Z.pow_le_mono_r; [lia|].
    unfold k. destruct (Z_lt_le_dec (Z.log2 (x - 1)) j); [lia|]. exfalso. assert (2 ^ j <= 2 ^ Z.log2 (x - 1)) by (apply Z.pow_le_mono_r; lia). lia.
Qed.
(** Negative arguments and zero give 0; between 2^30 and 2^31 the last addition overflows. *)
Theorem C27_next_power_two_outside x :
  (x < 0 -> next_power_two x = Ok 0) /\ next_power_two 0 = Ok 0 /\ (2 ^ 30 < x < 2 ^ 31 -> next_power_two x = UB).
Proof.
  split; [intros H; unfold next_power_two; destruct (Z.ltb_spec x 0); [auto|lia]|]. split; [reflexivity|]. intros H.
  unfold next_power_two. destruct (Z.ltb_spec x 0); [lia|].
  destruct (C26_is_power_two x ltac:(unfold int32_min, int32_max; lia)) as [b [E B]]. rewrite E. cbn [bind]. destruct b.
  - exfalso. destruct (proj1 B eq_refl) as [k [K ->]]. assert (30 < k) by (apply (Z.pow_lt_mono_r_iff 2); lia). assert (k < 31) by (apply (Z.pow_lt_mono_r_iff 2); lia). lia.
  - rewrite to_int32_small by (unfold int32_min, int32_max; lia). rewrite int32_op_ok by (unfold int32_min, int32_max; lia). cbn [bind].
    rewrite smear_ones by lia. replace (Z.log2 (x - 1)) with 30 by (symmetry; apply Z.log2_unique; lia). reflexivity.
Qed.

(** *** Primality *)
Lemma is_prime_loop_false fuel n : 3 < n < 2 ^ 64 -> (n mod 6 = 1 \/ n mod 6 = 5) -> forall r, 5 <= r <= n -> r mod 6 = 5 -> (n - r < Z.of_nat fuel) ->
  is_prime_loop fuel n r = Some (Ok false).
Proof.
  intros Hn Hm. induction fuel as [|f IH]; intros r Hr Mr HF; [lia|]. cbn [is_prime_loop].
  destruct (Z.leb_spec (to_uint64 (r * r)) n); [|reflexivity]. destruct (Z.eqb_spec r 0); [lia|].
  destruct (Z.eqb_spec (n mod r) 0) as [|Nr]; [reflexivity|].
  assert (r <> n) by (intros ->; rewrite Z.mod_same in Nr; lia).
  assert (R2 : r + 2 <= n) by (pose proof (Z.div_mod n 6 ltac:(lia)); pose proof (Z.div_mod r 6 ltac:(lia)); lia).
  assert (E2 : to_uint64 (r + 2) = r + 2) by (unfold to_uint64; apply Z.mod_small; lia). rewrite E2. destruct (Z.eqb_spec (r + 2) 0); [lia|].
  destruct (Z.eqb_spec (n mod (r + 2)) 0) as [|N2]; [reflexivity|].
  assert (r + 2 <> n) by (intros Q; rewrite Q, Z.mod_same in N2; lia).
  assert (R6 : r + 6 <= n) by (pose proof (Z.div_mod n 6 ltac:(lia)); pose proof (Z.div_mod r 6 ltac:(lia)); lia).
  unfold to_uint64. rewrite Z.mod_small by lia. apply IH; [lia| |lia].
  rewrite <- (Z.mul_1_l 6) at 1. rewrite Z.mod_add by lia. auto.
Qed.
(** The program answers "prime" for 2 and 3 and for nothing else. *)
Theorem C28_is_prime_actual x fuel : 0 <= x < 2 ^ 64 -> x <= Z.of_nat fuel ->
  is_prime fuel x = Some (Ok ((x =? 2) || (x =? 3))).
Proof.
  intros H HF. unfold is_prime. replace (to_uint64 x) with x by (unfold to_uint64; rewrite Z.mod_small; lia).
  destruct (Z.leb_spec x 1).
  { destruct (Z.eqb_spec x 2), (Z.eqb_spec x 3); try lia. reflexivity. }
  destruct (Z.leb_spec x 3).
  { destruct (Z.eqb_spec x 2), (Z.eqb_spec x 3); try lia; reflexivity. }
  replace ((x =? 2) || (x =? 3))%bool with false by (destruct (Z.eqb_spec x 2), (Z.eqb_spec x 3); try lia; reflexivity).
  destruct (Z.eqb_spec (Z.land x 1) 0) as [|O]; [reflexivity|]. destruct (Z.eqb_spec (x mod 3) 0) as [|T]; [reflexivity|].
  assert (O2 : x mod 2 <> 0) by (change 1 with (Z.ones 1) in O; rewrite Z.land_ones in O by lia; exact O).
  destruct (Z.eq_dec x 4) as [->|]; [exfalso; apply O2; reflexivity|].
  apply is_prime_loop_false; try lia; [|reflexivity].
  pose proof (Z.mod_pos_bound x 6 ltac:(lia)). pose proof (Z.div_mod x 6 ltac:(lia)) as D.
  assert (E2 : x mod 2 = (x mod 6) mod 2) by (rewrite D at 1; replace (6 * (x / 6) + x mod 6) with (x mod 6 + (3 * (x / 6)) * 2) by lia; apply Z.mod_add; lia).
  assert (E3 : x mod 3 = (x mod 6) mod 3) by (rewrite D at 1; replace (6 * (x / 6) + x mod 6) with (x mod 6 + (2 * (x / 6)) * 3) by lia; apply Z.mod_add; lia).
  assert (C : x mod 6 = 0 \/ x mod 6 = 1 \/ x mod 6 = 2 \/ x mod 6 = 3 \/ x mod 6 = 4 \/ x mod 6 = 5) by lia.
  destruct C as [C|[C|[C|[C|[C|C]]]]]; auto; rewrite C in E2, E3; exfalso; first [apply O2; rewrite E2; reflexivity | apply T; rewrite E3; reflexivity].
Qed.
(** A negative number is read as the unsigned number 2^64 above it: never prime. *)
Theorem C28_is_prime_negative x fuel : - 2 ^ 63 <= x < 0 -> x + 2 ^ 64 <= Z.of_nat fuel -> is_prime fuel x = Some (Ok false).
Proof.
  intros H HF. assert (E : is_prime fuel x = is_prime fuel (x + 2 ^ 64)) by (unfold is_prime; replace (to_uint64 (x + 2 ^ 64)) with (to_uint64 x) by (unfold to_uint64; rewrite <- (Z.mod_add x 1) by lia; f_equal; lia); reflexivity).
  rewrite E, C28_is_prime_actual by lia. destruct (Z.eqb_spec (x + 2 ^ 64) 2), (Z.eqb_spec (x + 2 ^ 64) 3); try lia. reflexivity.
Qed.
(** A positive answer is right. *)
Theorem C28_is_prime_sound_partial x fuel : 0 <= x < 2 ^ 64 -> x <= Z.of_nat fuel -> is_prime fuel x = Some (Ok true) -> prime x.
Proof.
  intros H HF E. rewrite C28_is_prime_actual in E by auto. injection E as E. apply Bool.orb_true_iff in E as [E|E]; apply Z.eqb_eq in E; subst; [apply prime_2|apply prime_3].
Qed.
(** Every prime above three is rejected. *)
Theorem C28_is_prime_refuted p fuel : prime p -> 3 < p < 2 ^ 64 -> p <= Z.of_nat fuel -> is_prime fuel p = Some (Ok false).
Proof.
  intros _ H HF. rewrite C28_is_prime_actual by lia. destruct (Z.eqb_spec p 2), (Z.eqb_spec p 3); try lia. reflexivity.
Qed.
Example prime_5 : prime 5.
Proof.
  apply prime_intro; [lia|]. intros n Hn. assert (n = 1 \/ n = 2 \/ n = 3 \/ n = 4) as [->|[->|[->| ->]]] by lia; apply Zgcd_1_rel_prime; reflexivity.
Qed.

(** *** Parity *)
Theorem C29_parity x : (is_odd x = true <-> is_even x = false) /\
  (0 <= x -> (is_odd x = true <-> Z.Odd x) /\ (is_even x = true <-> Z.Even x)) /\
  (x < 0 -> is_odd x = false /\ is_even x = true).
Proof.
  split; [unfold is_even; destruct (is_odd x); simpl; split; congruence|]. split.
  - intros H. unfold is_even, is_odd. rewrite Z.rem_mod_nonneg by lia. rewrite Zmod_odd. rewrite <- Z.odd_spec, <- Z.even_spec, <- Z.negb_odd.
    destruct (Z.odd x); simpl; split; split; congruence.
  - intros H. unfold is_even, is_odd. assert (B2 : Z.rem x 2 <= 0) by (apply Z.rem_nonpos; lia).
    destruct (Z.eqb_spec (Z.rem x 2) 1); [lia|]. auto.
Qed.
Theorem C29_parity_refuted x : x < 0 -> Z.Odd x -> is_odd x = false /\ is_even x = true.
Proof. intros H _. apply C29_parity; auto. Qed.
Example odd_neg : -3 < 0 /\ Z.Odd (-3). Proof. split; [lia|]. exists (-2). reflexivity. Qed.

(** *** Scalars and classification *)
Local Open Scope R_scope.
Theorem C71_fract x : 0 <= fract x < 1 /\ is_integer (x - fract x) /\ (forall k : Z, fract (x + IZR k) = fract x).
Proof.
  unfold fract. destruct (cfloor_spec x) as [[n En] B]. split; [lra|]. split; [exists n; lra|]. intros k.
  destruct (cfloor_spec (x + IZR k)) as [[m Em] B']. enough (IZR m = IZR n + IZR k) by lra. rewrite <- plus_IZR. f_equal.
  rewrite En in B. rewrite Em in B'. assert (IZR m < IZR (n + k + 1)) by (rewrite !plus_IZR; lra). assert (IZR (n + k) < IZR (m + 1)) by (rewrite !plus_IZR; lra).
  apply lt_IZR in H, H0. lia.
Qed.
Theorem C71_inv_half_square x : (x <> 0 -> ninv x = Ok (/ x)) /\ ninv 0 = NonFinite /\ 2 * nhalf x = x /\ nsquare x = x ^ 2 /\ 0 <= nsquare x.
Proof.
  unfold ninv, nhalf, nsquare. split; [intros H; rewrite rdiv_ok by auto; f_equal; unfold Rdiv; ring|]. split; [apply rdiv_zero|]. split; [field|]. split; [ring|apply Rle_0_sqr].
Qed.
(** Exactly one of the five classes holds for every double, and the class is the one of its value. *)
Theorem C71_fpclassify f : valid_binary 53 1024 f = true ->
  exists c, (is_nan f, is_inf f, is_zero f, is_denormal f, is_normal f) = c /\
  (c = (true, false, false, false, false) \/ c = (false, true, false, false, false) \/ c = (false, false, true, false, false) \/
   c = (false, false, false, true, false) \/ c = (false, false, false, false, true)) /\
  (is_nan f = true <-> f = S754_nan) /\ (is_inf f = true <-> exists s, f = S754_infinity s) /\ (is_zero f = true <-> exists s, f = S754_zero s) /\
  (is_denormal f = true <-> exists s m, f = S754_finite s m (-1074) /\ (Z.pos m < 2 ^ 52)%Z) /\
  (is_normal f = true <-> exists s m e, f = S754_finite s m e /\ (2 ^ 52 <= Z.pos m < 2 ^ 53)%Z).
Proof.
  intros V. eexists. split; [reflexivity|].
  assert (A : forall s m e, valid_binary 53 1024 (S754_finite s m e) = true -> (Z.pos m < 2 ^ 53 /\ (Z.pos m < 2 ^ 52 -> e = -1074))%Z).
  { intros s m e Vf. cbn [valid_binary] in Vf. unfold bounded, canonical_mantissa in Vf. apply andb_prop in Vf as [V1 _]. apply Zeq_bool_eq in V1. unfold fexp, emin in V1.
    assert (D : Zpos (digits2_pos m) = (Z.log2 (Z.pos m) + 1)%Z).
    { clear. induction m as [m IH|m IH|]; cbn [digits2_pos]; auto; rewrite Pos2Z.inj_succ, IH; destruct m; simpl; try rewrite Pos.add_1_r; reflexivity || lia. }
    rewrite D in V1. pose proof (Z.log2_spec (Z.pos m) ltac:(lia)) as [L1 L2]. split.
    - apply Z.lt_le_trans with (1 := L2). apply Z.pow_le_mono_r; [lia|]. lia.
    - intros HM. assert (Z.log2 (Z.pos m) < 52)%Z by (apply Z.log2_lt_pow2; lia). lia. }
  unfold is_nan, is_inf, is_zero, is_denormal, is_normal. destruct f as [s|s| |s m e]; cbn [fpclassify fpclass_eqb].
  - split; [auto 6|]. split; [split; discriminate|]. split; [split; [discriminate|intros [? ?]; discriminate]|]. split; [split; eauto|]. split; split; try discriminate; intros [? [? ?]]; [destruct H|destruct H as [? [? ?]]]; discriminate.
  - split; [auto 6|]. split; [split; discriminate|]. split; [split; eauto|]. split; [split; [discriminate|intros [? ?]; discriminate]|]. split; split; try discriminate; intros [? [? ?]]; [destruct H|destruct H as [? [? ?]]]; discriminate.
  - split; [auto 6|]. split; [split; auto|]. split; [split; [discriminate|intros [? ?]; discriminate]|]. split; [split; [discriminate|intros [? ?]; discriminate]|]. split; split; try discriminate; intros [? [? ?]]; [destruct H|destruct H as [? [? ?]]]; discriminate.
  - destruct (A s m e V) as [A1 A2]. destruct (Z.ltb_spec (Z.pos m) (2 ^ 52)) as [L|L]; cbn [fpclass_eqb].
    + split; [auto 6|]. split; [split; discriminate|]. split; [split; [discriminate|intros [? ?]; discriminate]|]. split; [split; [discriminate|intros [? ?]; discriminate]|]. split.
      * split; auto. intros _. exists s, m. rewrite <- (A2 L). auto.
      * split; [discriminate|]. intros [s' [m' [e' [E B]]]]. injection E as <- <- <-. lia.
    + split; [auto 6|]. split; [split; discriminate|]. split; [split; [discriminate|intros [? ?]; discriminate]|]. split; [split; [discriminate|intros [? ?]; discriminate]|]. split.
      * split; [discriminate|]. intros [s' [m' [E B]]]. injection E as <- <- ->. lia.
      * split; auto. intros _. exists s, m, e. auto.
Qed.
(** sign never returns zero: it is -1 exactly for negative numbers; zeros of either sign and NaN give 1. *)
Theorem C71_sign f : (sign_f f = (-1)%Z \/ sign_f f = 1%Z) /\
  (sign_f f = (-1)%Z <-> (f = S754_infinity true \/ exists m e, f = S754_finite true m e)).
Proof.
  unfold sign_f, is_negative_f. destruct f as [s|s| |s m e]; try destruct s; simpl; split; auto; split; intros H; try discriminate; auto; try (destruct H as [H|[? [? H]]]; discriminate).
  right. eauto.
Qed.

Print Assumptions C26_is_power_two.
Print Assumptions C26_is_power_two_boundaries.
Print Assumptions C27_next_power_two.
Print Assumptions C27_next_power_two_outside.
Print Assumptions C28_is_prime_actual.
Print Assumptions C28_is_prime_negative.
Print Assumptions C28_is_prime_sound_partial.
Print Assumptions C28_is_prime_refuted.
Print Assumptions C29_parity.
Print Assumptions C29_parity_refuted.
Print Assumptions C71_fract.
Print Assumptions C71_inv_half_square.
Print Assumptions C71_fpclassify.
Print Assumptions C71_sign.
