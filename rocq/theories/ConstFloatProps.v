(** Property C130: the constants as values of a floating-point type. *)
From Coq Require Import Reals Lra Lia ZArith QArith Qreals.
From Flocq Require Import Core Relative.
From Verif Require Import FloatSpec ConstModel ConstSpec ConstProofs ConstProps ConstFloatModel.
Local Open Scope R_scope.

Local Instance dbl_prec : Prec_gt_0 53. Proof. reflexivity. Qed.
Local Instance sgl_prec : Prec_gt_0 24. Proof. reflexivity. Qed.
Lemma Qle_R a b : Qle_bool a b = true -> Q2R a <= Q2R b.
Proof. intros H. apply Qle_Rle, Qle_bool_iff; auto. Qed.
(** No constant is close to zero. *)
Lemma literal_size c : / 64 <= Rabs (Q2R (literal c)) <= 64.
Proof.
  assert (H : (Qle_bool (1 # 64) (literal c) && Qle_bool (literal c) 64 || Qle_bool (literal c) (- (1 # 64)) && Qle_bool (- 64) (literal c))%bool = true) by (destruct c; vm_compute; reflexivity).
  assert (E1 : Q2R (1 # 64) = / 64) by (unfold Q2R; cbn [Qnum Qden]; field). assert (E2 : Q2R 64 = 64) by (unfold Q2R; cbn [Qnum Qden]; field).
  apply Bool.orb_prop in H as [H|H]; apply andb_prop in H as [A B]; apply Qle_R in A, B; rewrite ?Q2R_opp, ?E1, ?E2 in *.
  - rewrite Rabs_right by lra. lra.
  - rewrite Rabs_left by lra. lra.
Qed.
Lemma roundoff_bpow p : (0 < p)%Z -> roundoff p = bpow radix2 (- p).
Proof. intros P. unfold roundoff. rewrite bpow_opp. rewrite <- IZR_Zpower by lia. reflexivity. Qed.
Lemma nearest_err p em x : (0 < p)%Z -> (16 <= em)%Z -> / 128 <= Rabs x -> Rabs (nearest p em x - x) <= roundoff p * Rabs x.
Proof.
  intros P E X. assert (I : Prec_gt_0 p) by exact P. unfold nearest. eapply Rle_trans; [apply relative_error_N_FLT|].
  - exact I.
  - apply Rle_trans with (bpow radix2 (-7)); [apply bpow_le; lia|]. change (bpow radix2 (-7)) with (/ 128). auto.
  - apply Req_le. f_equal. rewrite roundoff_bpow by auto. rewrite bpow_plus. change (bpow radix2 1) with 2. field.
Qed.
Lemma roundoff_small p : (0 < p)%Z -> 0 < roundoff p <= / 2.
Proof. intros P. rewrite roundoff_bpow by auto. split; [apply bpow_gt_0|]. change (/ 2) with (bpow radix2 (-1)). apply bpow_le. lia. Qed.
Lemma roundoff_double : roundoff 53 = / 9007199254740992. Proof. reflexivity. Qed.
Lemma literal_double_err c : Rabs (literal_double c - Q2R (literal c)) <= roundoff 53 * Rabs (Q2R (literal c)).
Proof. apply nearest_err; try lia. pose proof (literal_size c). lra. Qed.
Lemma tri a b : Rabs a <= Rabs b + Rabs (a - b).
Proof. replace a with (b + (a - b)) at 1 by ring. apply Rabs_triang. Qed.
Lemma literal_double_size c : / 128 <= Rabs (literal_double c).
Proof.
  pose proof (literal_double_err c) as E. pose proof (literal_size c) as S. pose proof (tri (Q2R (literal c)) (literal_double c)) as T. rewrite (Rabs_minus_sym (Q2R (literal c))) in T. rewrite roundoff_double in E. lra.
Qed.
(** In any format the constants are off by little more than one rounding: the rounding of the format and twice that of double. *)
Theorem C130_accuracy (prec emax : Z) (c : constant_name) (x : R) : (0 < prec)%Z -> (16 <= emax)%Z -> denotes c x ->
  Rabs (stored prec emax c - x) <= (roundoff prec + roundoff 52) * Rabs x.
Proof.
  intros P E H. apply C111_constants in H. unfold accurate in H. pose proof (literal_double_err c) as D. pose proof (literal_double_size c) as Z.
  pose proof (nearest_err prec emax (literal_double c) P E Z) as S. fold (stored prec emax c) in S. pose proof (roundoff_small prec P) as U. set (u := roundoff prec) in *. clearbody u.
  change (roundoff 52) with (/ 4503599627370496). rewrite roundoff_double in D. set (l := Q2R (literal c)) in *. set (d := literal_double c) in *. set (s := stored prec emax c) in *. clearbody l d s.
  assert (T : 0 < / 10 ^ 36 <= / 10 ^ 35) by (split; [apply Rinv_0_lt_compat, pow_lt; lra|apply Rinv_le_contravar; [apply pow_lt; lra|apply Rle_pow; [lra|lia]]]). unfold Rdiv in H.
  assert (T2 : / 10 ^ 36 <= / 1000000000000000000000000) by (apply Rinv_le_contravar; [lra|]; replace 1000000000000000000000000 with (10 ^ 24) by ring; apply Rle_pow; [lra|lia]).
  set (e := / 10 ^ 36) in *. clearbody e. pose proof (Rabs_pos x) as X. pose proof (tri l x) as L1. pose proof (tri d l) as D1.
  replace (s - x) with (s - d + (d - l) + (l - x)) by ring. eapply Rle_trans; [apply Rabs_triang|]. eapply Rle_trans; [apply Rplus_le_compat_r, Rabs_triang|].
  set (ax := Rabs x) in *. set (al := Rabs l) in *. set (ad := Rabs d) in *. clearbody ax al ad. set (ds := Rabs (s - d)) in *. set (dl := Rabs (d - l)) in *. set (lx := Rabs (l - x)) in *. clearbody ds dl lx.
  assert (AE : ax * e <= ax * / 1000000000000000000000000) by (apply Rmult_le_compat_l; lra).
  assert (AL : al <= ax + ax * / 1000000000000000000000000) by lra. assert (AD : ad <= ax + ax * / 6000000000000000) by lra.
  assert (UD : u * ad <= u * ax + ax * / 12000000000000000) by nra. lra.
Qed.
(** For double: one rounding. *)
Theorem C130_double (c : constant_name) (x : R) : denotes c x -> Rabs (stored 53 1024 c - x) <= (roundoff 53 + roundoff 100) * Rabs x.
Proof.
  intros H. apply C111_constants in H. unfold accurate in H. pose proof (literal_double_err c) as D.
  assert (S : stored 53 1024 c = literal_double c) by (apply round_generic; [auto with typeclass_instances|apply generic_format_round; auto with typeclass_instances]). rewrite S.
  change (roundoff 100) with (/ 1267650600228229401496703205376). rewrite roundoff_double in *. set (l := Q2R (literal c)) in *. set (d := literal_double c) in *. clearbody l d. clear S.
  assert (T2 : 0 < / 10 ^ 36 <= / 10000000000000000000000000000000000) by (split; [apply Rinv_0_lt_compat, pow_lt; lra|apply Rinv_le_contravar; [lra|]; replace 10000000000000000000000000000000000 with (10 ^ 34) by ring; apply Rle_pow; [lra|lia]]). unfold Rdiv in H.
  set (e := / 10 ^ 36) in *. clearbody e. pose proof (Rabs_pos x) as X. pose proof (tri l x) as L1. replace (d - x) with (d - l + (l - x)) by ring. eapply Rle_trans; [apply Rabs_triang|].
  assert (AE : Rabs x * e <= Rabs x * / 10000000000000000000000000000000000) by (apply Rmult_le_compat_l; lra). lra.
Qed.
(** A wider type holds the double: nothing is gained. *)
Theorem C130_wider (prec emax : Z) (c : constant_name) : (53 <= prec)%Z -> (1024 <= emax)%Z -> stored prec emax c = stored 53 1024 c.
Proof.
  intros P E. assert (I : Prec_gt_0 prec) by (unfold Prec_gt_0; lia).
  assert (F : generic_format radix2 (FLT_exp (3 - 1024 - 53) 53) (literal_double c)) by (apply generic_format_round; auto with typeclass_instances).
  unfold stored, nearest. rewrite (round_generic radix2 (FLT_exp (3 - 1024 - 53) 53)) by auto with typeclass_instances. apply round_generic; [auto with typeclass_instances|].
  apply generic_inclusion_mag with (2 := F). intros _. unfold FLT_exp. lia.
Qed.
(** So a constant of an extended type (64 bits) is not the nearest, nor next to it, as its 37 digits suggest. *)
Theorem C130_extended_refuted : ~ (forall c x, denotes c x -> Rabs (stored 64 16384 c - x) <= 2 * roundoff 64 * Rabs x).
Proof.
  intros H. specialize (H pi PI eq_refl). rewrite C130_wider in H by lia. pose proof (C130_double pi PI eq_refl) as B.
  assert (F : generic_format radix2 (FLT_exp (3 - 1024 - 53) 53) (stored 53 1024 pi)) by (apply generic_format_round; auto with typeclass_instances).
  pose proof pi_bounds as P. assert (P1 : 31415926535897932 / 10 ^ 16 <= PI <= 31415926535897933 / 10 ^ 16).
  { assert (A : V (31415926535897932 * one / 10 ^ 16) <= V pi_lo) by (apply V_le; vm_compute; discriminate). assert (C : V (pi_lo + slack) <= V (31415926535897933 * one / 10 ^ 16)) by (apply V_le; vm_compute; discriminate).
    pose proof (V_div_dn (31415926535897933 * one) (10 ^ 16) ltac:(reflexivity)) as C2. pose proof (V_div_up (31415926535897932 * one) (10 ^ 16) ltac:(reflexivity)) as A2.
    rewrite V_scale, V_one in A2, C2. change (IZR (10 ^ 16)) with 10000000000000000 in *. replace (10 ^ 16) with 10000000000000000 by ring.
    assert (A3 : V (31415926535897932 * one / 10 ^ 16 + 1) <= V pi_lo) by (apply V_le; vm_compute; discriminate). lra. }
  replace (10 ^ 16) with 10000000000000000 in P1 by ring. rewrite (Rabs_right PI) in * by lra. change (roundoff 53) with (/ 9007199254740992) in B. change (roundoff 100) with (/ 1267650600228229401496703205376) in B. change (roundoff 64) with (/ 18446744073709551616) in H.
  set (d := stored 53 1024 pi) in *. clearbody d. apply Rabs_le_inv in B. apply Rabs_le_inv in H.
  assert (D : 3 <= d <= 4) by lra. assert (M : mag radix2 d = 2%Z :> Z).
  { apply mag_unique. rewrite Rabs_right by lra. change (bpow radix2 (2 - 1)) with 2. change (bpow radix2 2) with 4. lra. }
  unfold generic_format, scaled_mantissa, F2R, cexp in F. cbn [Fnum Fexp] in F. rewrite M in F. change (FLT_exp (3 - 1024 - 53) 53 2) with (-51)%Z in F. change (bpow radix2 (-51)) with (/ 2251799813685248) in F.
  set (m := Ztrunc (d * bpow radix2 (- -51))) in *. clearbody m.
  assert (A : 7074237752028440 < IZR m + 0) by lra. assert (C : IZR m < 7074237752028441) by lra. rewrite Rplus_0_r in A. apply lt_IZR in A, C. lia.
Qed.
(** A float holds pi to seven digits. *)
Example C130_example : Rabs (stored 24 128 pi - PI) <= / 4000000.
Proof.
  pose proof (C130_accuracy 24 128 pi PI ltac:(lia) ltac:(lia) eq_refl) as H. pose proof PI_4. pose proof PI_RGT_0. rewrite (Rabs_right PI) in H by lra. change (roundoff 24) with (/ 16777216) in H. change (roundoff 52) with (/ 4503599627370496) in H. lra.
Qed.
Print Assumptions C130_accuracy.
Print Assumptions C130_double.
Print Assumptions C130_wider.
Print Assumptions C130_extended_refuted.
