(** C148: brown and pink noise of ints, as computed in doubles. *)
From Coq Require Import ZArith Reals List Bool Lia Lra Psatz.
From Flocq Require Import Core BinarySingleNaN.
From Verif Require Import Base FloatModel FloatSpec FloatProofs FloatClockProps FloatNoiseModel.
From Verif Require ExpModel.
Import ListNotations.
Local Open Scope R_scope.

Notation rnd := (round radix2 (FLT_exp (3 - 1024 - 53) 53) ZnearestE).
Notation val := (@B2R 53 1024).
Notation fin := (@is_finite 53 1024).
Definition eps : R := / 4503599627370496.

Lemma rnd_near r B : Rabs r <= B -> 1 <= B <= bpow radix2 50 -> Rabs (rnd r - r) <= B * eps /\ Rabs (rnd r) < bpow radix2 1024.
Proof.
  intros H [B1 B2]. pose proof (rnd_err 53 1024 r) as E.
  assert (U : unit_roundoff 53 = / 9007199254740992) by reflexivity. rewrite U in E.
  assert (T : tiny 53 1024 <= / 9007199254740992) by (unfold tiny; change (/ 9007199254740992) with (bpow radix2 (-53)); apply bpow_le; lia).
  pose proof (tiny_pos 53 1024) as TP.
  assert (D : Rabs (rnd r - r) <= B * eps) by (unfold eps; lra).
  split; [exact D|]. assert (L : bpow radix2 52 <= bpow radix2 1023) by (apply bpow_le; lia).
  assert (L2 : bpow radix2 1023 < bpow radix2 1024) by (apply bpow_lt; lia). change (bpow radix2 50) with 1125899906842624 in B2. change (bpow radix2 52) with 4503599627370496 in L.
  pose proof (Rabs_triang (rnd r - r) r) as TR. replace (rnd r - r + r) with (rnd r) in TR by ring. unfold eps in D. lra.
Qed.
Lemma add_ok x y B : fin x = true -> fin y = true -> Rabs (val x + val y) <= B -> 1 <= B <= bpow radix2 50 ->
  fin (dadd x y) = true /\ Rabs (val (dadd x y) - (val x + val y)) <= B * eps.
Proof.
  intros Fx Fy H HB. destruct (rnd_near _ B H HB) as [E L]. destruct (add_cases 53 1024 x y Fx Fy) as [[_ [V F]]|[N _]]; [|lra]. rewrite V. auto.
Qed.
Lemma sub_ok x y B : fin x = true -> fin y = true -> Rabs (val x - val y) <= B -> 1 <= B <= bpow radix2 50 ->
  fin (dsub x y) = true /\ Rabs (val (dsub x y) - (val x - val y)) <= B * eps.
Proof.
  intros Fx Fy H HB. destruct (rnd_near _ B H HB) as [E L]. destruct (sub_cases 53 1024 x y Fx Fy) as [[_ [V F]]|[N _]]; [|lra]. rewrite V. auto.
Qed.
Lemma mul_ok x y B : fin x = true -> fin y = true -> Rabs (val x * val y) <= B -> 1 <= B <= bpow radix2 50 ->
  fin (dmul x y) = true /\ Rabs (val (dmul x y) - val x * val y) <= B * eps.
Proof.
  intros Fx Fy H HB. destruct (rnd_near _ B H HB) as [E L]. destruct (mul_cases 53 1024 x y Fx Fy) as [[_ [V F]]|[N _]]; [|lra]. rewrite V. auto.
Qed.
Lemma div_ok x y B : fin x = true -> val y <> 0 -> Rabs (val x / val y) <= B -> 1 <= B <= bpow radix2 50 ->
  fin (fdiv 53 1024 x y) = true /\ Rabs (val (fdiv 53 1024 x y) - val x / val y) <= B * eps.
Proof.
  intros Fx Fy H HB. destruct (rnd_near _ B H HB) as [E L]. destruct (div_cases 53 1024 x y Fx Fy) as [[_ [V [F _]]]|[N _]]; [|lra]. rewrite V. auto.
Qed.
Lemma di_ok z : (Z.abs z <= 2 ^ 53)%Z -> fin (di z) = true /\ val (di z) = IZR z.
Proof.
  intros H. unfold di, of_Z. pose proof (binary_normalize_correct 53 1024 eq_refl eq_refl mode_NE z 0 false) as C. cbv zeta in C.
  assert (E : F2R (Float radix2 z 0) = IZR z) by (unfold F2R; cbn; ring). rewrite E in C.
  assert (G : round radix2 (SpecFloat.fexp 53 1024) (round_mode mode_NE) (IZR z) = IZR z) by (apply (rnd_id 53 1024), (fmt_small 53 1024); exact H).
  rewrite G in C. rewrite Rlt_bool_true in C.
  - destruct C as [V [F _]]. split; [exact F|exact V].
  - rewrite <- abs_IZR. apply Rle_lt_trans with (IZR (2 ^ 53)); [apply IZR_le, H|]. rewrite (IZR_Zpower radix2) by lia. apply bpow_lt. lia.
Qed.
Lemma trunc_near r : Rabs (IZR (Ztrunc r)) <= Rabs r /\ Rabs (IZR (Ztrunc r) - r) < 1.
Proof.
  destruct (Rle_or_lt 0 r) as [P|P].
  - rewrite Ztrunc_floor by exact P. pose proof (Zfloor_lb r). pose proof (Zfloor_ub r).
    assert (0 <= IZR (Zfloor r)) by (apply IZR_le, Zfloor_lub; exact P). split; [rewrite !Rabs_pos_eq; lra|apply Rabs_def1; lra].
  - rewrite Ztrunc_ceil by lra. pose proof (Zceil_ub r). pose proof (Zceil_lb r).
    assert (IZR (Zceil r) <= 0) by (apply IZR_le, Zceil_glb; lra). split; [rewrite !Rabs_left1; lra|apply Rabs_def1; lra].
Qed.
Lemma fits_small z : Rabs (IZR z) < 2147483648 -> int_fits z = true.
Proof.
  intros H. apply Rabs_def2 in H. destruct H as [A B]. change 2147483648 with (IZR (2 ^ 31)) in A, B. rewrite <- opp_IZR in B. apply lt_IZR in A, B.
  unfold int_fits. apply andb_true_intro. split; [apply Z.leb_le|apply Z.ltb_lt]; lia.
Qed.
Lemma to_int_ok (x : double) : fin x = true -> Rabs (val x) < 2147483648 ->
  exists z, to_int x = Ok z /\ Rabs (IZR z) <= Rabs (val x) /\ Rabs (IZR z - val x) < 1 /\ z = Ztrunc (val x).
Proof.
  intros F H. assert (E : Btrunc x = Ztrunc (val x)).
  { apply eq_IZR. rewrite (Btrunc_correct 53 1024 eq_refl x). unfold round, F2R, scaled_mantissa, cexp, FIX_exp. cbn [Fnum Fexp]. change (- 0)%Z with 0%Z. change (bpow radix2 0) with 1. rewrite !Rmult_1_r. reflexivity. }
  destruct (trunc_near (val x)) as [A B]. exists (Ztrunc (val x)). unfold to_int. rewrite F, E, fits_small by lra. auto.
Qed.
Ltac literal m e := match goal with |- fin ?x = true /\ _ => let F := fresh in let V := fresh in
  destruct (sf_val x m e) as [F V]; [vm_compute; reflexivity|split; [exact F|rewrite V; cbn; unfold eps; try (apply Rabs_le); lra]] end.
Lemma lit_02 : fin (lit 2 100) = true /\ Rabs (val (lit 2 100) - 2/100) <= eps. Proof. literal 5764607523034235%positive (-58)%Z. Qed.
Lemma lit_102 : fin (lit 102 100) = true /\ val (lit 102 100) = 4593671619917906 / 4503599627370496. Proof. literal 4593671619917906%positive (-52)%Z. Qed.
Lemma lit_35 : fin (lit 35 10) = true /\ val (lit 35 10) = 7/2. Proof. literal 7881299347898368%positive (-51)%Z. Qed.

Lemma small_int z K : (Z.abs z <= K)%Z -> (K <= 2 ^ 53)%Z -> fin (di z) = true /\ val (di z) = IZR z /\ Rabs (IZR z) <= IZR K.
Proof. intros H HK. destruct (di_ok z) as [F V]; [lia|]. rewrite <- abs_IZR. split; [exact F|]. split; [exact V|apply IZR_le, H]. Qed.
Lemma prod_le a b A B : Rabs a <= A -> Rabs b <= B -> Rabs (a * b) <= A * B.
Proof. intros HA HB. rewrite Rabs_mult. apply Rmult_le_compat; auto; apply Rabs_pos. Qed.
Lemma abs_bound x y d : Rabs (x - y) <= d -> Rabs x <= Rabs y + d.
Proof. intros H. pose proof (Rabs_triang (x - y) y) as T. replace (x - y + y) with x in T by ring. lra. Qed.

(** ** Brown noise *)
Lemma brown_step M l w : (1 <= M)%Z -> (7 * M < 2 ^ 32)%Z -> (Z.abs l <= M)%Z -> (Z.abs w <= M)%Z ->
  exists l' y, ibrown_tick l w = Ok (l', y) /\ (Z.abs l' <= M)%Z /\ (2 * Z.abs y <= 7 * Z.abs l')%Z /\
    Rabs (IZR l' - (IZR l + 2/100 * IZR w) / (102/100)) < 2 /\ Rabs (IZR y - 35/10 * IZR l') < 1.
Proof.
  intros HM M7 Hl Hw.
  destruct (small_int l M Hl ltac:(lia)) as [Fl [Vl Al]]. destruct (small_int w M Hw ltac:(lia)) as [Fw [Vw Aw]].
  assert (M1 : 1 <= IZR M) by (apply IZR_le; lia). assert (M2 : 7 * IZR M <= 4294967295) by (rewrite <- mult_IZR; apply IZR_le; lia).
  destruct lit_02 as [F1 V1]. destruct lit_102 as [F2 V2]. destruct lit_35 as [F3 V3].
  change (bpow radix2 50) with 1125899906842624 in *. assert (BP : bpow radix2 50 = 1125899906842624) by reflexivity.
  set (m := IZR M) in *. set (rl := IZR l) in *. set (rw := IZR w) in *.
  (* 0.02 * white *)
  assert (C1 : Rabs (val (lit 2 100) * rw - 2/100 * rw) <= eps * m).
  { replace (val (lit 2 100) * rw - 2/100 * rw) with ((val (lit 2 100) - 2/100) * rw) by ring. apply prod_le; assumption. }
  assert (C2 : Rabs (2/100 * rw) <= 2/100 * m) by (rewrite Rabs_mult, (Rabs_pos_eq (2/100)) by lra; lra).
  pose proof (abs_bound _ _ _ C1) as C3.
  destruct (mul_ok (lit 2 100) (di w) m F1 Fw) as [Fp Ep]; [rewrite Vw; unfold eps in C3; lra|rewrite BP; lra|]. rewrite Vw in Ep.
  set (p := dmul (lit 2 100) (di w)) in *.
  assert (P1 : Rabs (val p - 2/100 * rw) <= 2 * m * eps).
  { pose proof (Rabs_triang (val p - val (lit 2 100) * rw) (val (lit 2 100) * rw - 2/100 * rw)) as T.
    replace (val p - val (lit 2 100) * rw + (val (lit 2 100) * rw - 2/100 * rw)) with (val p - 2/100 * rw) in T by ring. lra. }
  apply Rabs_le_inv in P1. apply Rabs_le_inv in Al. apply Rabs_le_inv in Aw. unfold eps in *.
  destruct (add_ok (di l) p (2 * m) Fl Fp) as [Fs Es]; [rewrite Vl; apply Rabs_le; lra|rewrite BP; lra|]. rewrite Vl in Es. apply Rabs_le_inv in Es. unfold eps in Es.
  set (s := dadd (di l) p) in *.
  destruct (to_int_ok s Fs) as [l1 [E1 [A1 [D1 _]]]]; [apply Rabs_def1; lra|]. apply Rabs_def2 in D1.
  assert (S1 : Rabs (val s) <= 102/100 * m + 4 * m / 4503599627370496) by (apply Rabs_le; lra).
  assert (L1 : Rabs (IZR l1) <= 102/100 * m + 4 * m / 4503599627370496) by lra. clear A1.
  destruct (di_ok l1) as [F4 V4]; [apply le_IZR; rewrite abs_IZR; change (IZR (2 ^ 53)) with 9007199254740992; lra|].
  apply Rabs_le_inv in L1. set (r1 := IZR l1) in *.
  assert (Q : val (di l1) / val (lit 102 100) = r1 * (4503599627370496 / 4593671619917906)) by (rewrite V4, V2; field).
  destruct (div_ok (di l1) (lit 102 100) (2 * m) F4) as [Fq Eq]; [rewrite V2; lra|rewrite Q; apply Rabs_le; lra|rewrite BP; lra|]. rewrite Q in Eq. apply Rabs_le_inv in Eq. unfold eps in Eq.
  set (q := fdiv 53 1024 (di l1) (lit 102 100)) in *.
  destruct (to_int_ok q Fq) as [l2 [E2 [A2 [D2 T2]]]]; [apply Rabs_def1; lra|]. apply Rabs_def2 in D2.
  assert (L2 : (Z.abs l2 <= M)%Z).
  { apply Zlt_succ_le. apply lt_IZR. rewrite abs_IZR, succ_IZR. fold m. eapply Rle_lt_trans; [exact A2|]. apply Rabs_def1; lra. }
  destruct (small_int l2 M L2 ltac:(lia)) as [F5 [V5 A5]]. fold m in A5. pose proof A5 as A5'. apply Rabs_le_inv in A5. set (r2 := IZR l2) in *.
  destruct (mul_ok (lit 35 10) (di l2) (4 * m) F3 F5) as [Fy Ey]; [rewrite V3, V5; apply Rabs_le; lra|rewrite BP; lra|].
  assert (VY : val (dmul (lit 35 10) (di l2)) = 7/2 * r2).
  { destruct (mul_cases 53 1024 (lit 35 10) (di l2) F3 F5) as [[_ [V _]]|[_ N]].
    - rewrite V, V3, V5. apply (rnd_id 53 1024). replace (7/2 * r2) with (F2R (Float radix2 (7 * l2) (-1))) by (unfold F2R, r2; cbn [Fnum Fexp]; rewrite mult_IZR; change (bpow radix2 (-1)) with (/ 2); lra).
      apply generic_format_F2R. intros NZ. cbn [Fnum]. unfold cexp, FLT_exp. apply Z.max_lub; [|lia].
      assert (MG : (mag radix2 (F2R (Float radix2 (7 * l2) (-1))) <= 40)%Z).
      { apply mag_le_bpow; [apply F2R_neq_0; exact NZ|]. unfold F2R; cbn [Fnum Fexp]. rewrite mult_IZR. fold r2. change (bpow radix2 (-1)) with (/ 2). change (bpow radix2 40) with 1099511627776. apply Rabs_def1; lra. }
      lia.
    - rewrite N in Fy. discriminate Fy. }
  destruct (to_int_ok (dmul (lit 35 10) (di l2)) Fy) as [y [E3 [A3 [D3 _]]]]; [rewrite VY; apply Rabs_def1; lra|]. rewrite VY in A3, D3.
  exists l2, y. split; [unfold ibrown_tick; fold p; fold s; rewrite E1; cbn [bind]; fold q; rewrite E2; cbn [bind]; rewrite E3; reflexivity|].
  split; [exact L2|]. split.
  - apply le_IZR. rewrite !mult_IZR, !abs_IZR. fold r2. rewrite Rabs_mult, (Rabs_pos_eq (7/2)) in A3 by lra. lra.
  - fold r2. split; [apply Rabs_def1; lra|]. replace (35/10) with (7/2) by lra. exact D3.
Qed.

(** The ideal brown noise: a leaky integrator in exact arithmetic. *)
Fixpoint leaky (l : R) (ws : list Z) : list R :=
  match ws with [] => [] | w :: t => let m := (l + 2/100 * IZR w) / (102/100) in 35/10 * m :: leaky m t end.

Lemma brown_all M ws : (1 <= M)%Z -> (7 * M < 2 ^ 32)%Z -> Forall (fun w => (Z.abs w <= M)%Z) ws ->
  forall l r, (Z.abs l <= M)%Z -> Rabs (IZR l - r) <= 102 -> exists ys, ibrown_run l ws = Ok ys /\
    Forall (fun y => (2 * Z.abs y <= 7 * M)%Z) ys /\ Forall2 (fun y i => Rabs (IZR y - i) <= 358) ys (leaky r ws).
Proof.
  intros HM M7 F. induction F as [|w ws W F IH]; intros l r Hl Hr; [exists []; repeat split; constructor|].
  destruct (brown_step M l w HM M7 Hl W) as [l' [y [E [L [Y [D1 D2]]]]]]. cbn [ibrown_run leaky]. rewrite E. cbn [bind fst snd].
  set (r' := (r + 2/100 * IZR w) / (102/100)).
  assert (N : Rabs (IZR l' - r') <= 102).
  { apply Rabs_def2 in D1. apply Rabs_le_inv in Hr. unfold r'. apply Rabs_le. lra. }
  destruct (IH l' r' L N) as [ys [E2 [B T]]]. rewrite E2. exists (y :: ys). split; [reflexivity|]. split; [constructor; [lia|exact B]|].
  constructor; [|exact T]. apply Rabs_def2 in D2. apply Rabs_le_inv in N. apply Rabs_le. lra.
Qed.

(** For white noise in [-M, M] with 3.5 M below the range of int, brown noise is always defined, stays in
    [-3.5 M, 3.5 M] and follows the ideal leaky integrator to within 358, however long it runs. *)
Theorem C148_brown M ws : (1 <= M)%Z -> (7 * M < 2 ^ 32)%Z -> Forall (fun w => (Z.abs w <= M)%Z) ws ->
  exists ys, ibrown ws = Ok ys /\ Forall (fun y => (2 * Z.abs y <= 7 * M)%Z) ys /\
    Forall2 (fun y i => Rabs (IZR y - i) <= 358) ys (leaky 0 ws).
Proof. intros HM M7 F. apply (brown_all M); auto; [lia|]. rewrite Rminus_0_r, Rabs_R0. lra. Qed.
(** With the whole range of int the conversion of the output overflows. *)
Theorem C148_brown_overflow_refuted : exists ws, Forall (fun w => (- 2 ^ 31 <= w < 2 ^ 31)%Z) ws /\ ibrown ws = UB.
Proof.
  exists (repeat (2 ^ 31 - 1)%Z 30). split; [apply Forall_forall; intros x Hx; apply repeat_spec in Hx; subst x; lia|]. vm_compute. reflexivity.
Qed.

(** With white noise below 50 in magnitude brown noise is silent. *)
Lemma silent_tick w : (Z.abs w < 50)%Z -> ibrown_tick 0 w = Ok (0, 0)%Z.
Proof.
  intros H. assert (A : forallb (fun n => match ibrown_tick 0 (Z.of_nat n - 49) with Ok (a, b) => (a =? 0)%Z && (b =? 0)%Z | _ => false end) (seq 0 99) = true) by (vm_compute; reflexivity).
  rewrite forallb_forall in A. specialize (A (Z.to_nat (w + 49))). rewrite Z2Nat.id in A by lia. replace (w + 49 - 49)%Z with w in A by lia.
  assert (I : In (Z.to_nat (w + 49)) (seq 0 99)) by (apply in_seq; lia). specialize (A I).
  destruct (ibrown_tick 0 w) as [[a b]| |]; try discriminate A. apply andb_prop in A. destruct A as [A1 A2]. apply Z.eqb_eq in A1, A2. subst. reflexivity.
Qed.
Theorem C148_brown_silent_refuted ws : Forall (fun w => (Z.abs w < 50)%Z) ws -> ibrown ws = Ok (map (fun _ => 0%Z) ws).
Proof. unfold ibrown. induction 1 as [|w ws W F IH]; [reflexivity|]. cbn [ibrown_run]. rewrite silent_tick by exact W. cbn [bind fst snd map]. rewrite IH. reflexivity. Qed.

(** ** Pink noise *)
Lemma di_real z m : Rabs (IZR z) <= m -> m <= 9007199254740992 -> fin (di z) = true /\ val (di z) = IZR z.
Proof. intros H HB. apply di_ok. apply le_IZR. rewrite abs_IZR. change (IZR (2 ^ 53)) with 9007199254740992. lra. Qed.
Lemma scaled c c0 b L : fin c = true -> Rabs (val c - c0) <= eps -> Rabs c0 <= 1 -> Rabs (IZR b) <= L -> 1 <= L <= bpow radix2 40 ->
  (fin (dmul c (di b)) = true /\ Rabs (val (dmul c (di b)) - c0 * IZR b) <= 3 * L * eps) /\
  (fin (dmul (di b) c) = true /\ Rabs (val (dmul (di b) c) - c0 * IZR b) <= 3 * L * eps).
Proof.
  intros F V C HB HL. change (bpow radix2 40) with 1099511627776 in HL. destruct (di_real b L HB ltac:(lra)) as [Fb Vb].
  assert (D : Rabs (val c * IZR b - c0 * IZR b) <= eps * L) by (replace (val c * IZR b - c0 * IZR b) with ((val c - c0) * IZR b) by ring; apply prod_le; assumption).
  pose proof (prod_le _ _ _ _ C HB) as P. pose proof (abs_bound _ _ _ D) as A. unfold eps in A.
  assert (BB : 1 <= 2 * L <= bpow radix2 50) by (change (bpow radix2 50) with 1125899906842624; lra).
  assert (H1 : Rabs (val c * val (di b)) <= 2 * L) by (rewrite Vb; lra).
  assert (H2 : Rabs (val (di b) * val c) <= 2 * L) by (rewrite Rmult_comm; exact H1).
  destruct (mul_ok c (di b) (2 * L) F Fb H1 BB) as [F1 E1]. destruct (mul_ok (di b) c (2 * L) Fb F H2 BB) as [F2 E2]. rewrite Vb in E1, E2. rewrite (Rmult_comm (IZR b)) in E2.
  pose proof (Rabs_triang (val (dmul c (di b)) - val c * IZR b) (val c * IZR b - c0 * IZR b)) as T1.
  pose proof (Rabs_triang (val (dmul (di b) c) - val c * IZR b) (val c * IZR b - c0 * IZR b)) as T2.
  replace (val (dmul c (di b)) - val c * IZR b + (val c * IZR b - c0 * IZR b)) with (val (dmul c (di b)) - c0 * IZR b) in T1 by ring.
  replace (val (dmul (di b) c) - val c * IZR b + (val c * IZR b - c0 * IZR b)) with (val (dmul (di b) c) - c0 * IZR b) in T2 by ring.
  split; (split; [assumption|]); unfold eps in *; lra.
Qed.
(** A double constant within [eps] of a decimal of magnitude at most one. *)
Definition near (c : double) (c0 : R) : Prop := fin c = true /\ Rabs (val c - c0) <= eps /\ Rabs c0 <= 1.
Lemma mix_ok c c0 d d0 b w m : near c c0 -> near d d0 -> Rabs (IZR b) <= 49 * m -> Rabs (IZR w) <= m -> 1 <= m <= 30678338 ->
  (let x := dadd (dmul c (di b)) (dmul (di w) d) in fin x = true /\ Rabs (val x - (c0 * IZR b + d0 * IZR w)) <= 784 * m * eps) /\
  (let x := dsub (dmul c (di b)) (dmul (di w) d) in fin x = true /\ Rabs (val x - (c0 * IZR b - d0 * IZR w)) <= 784 * m * eps).
Proof.
  intros [F [V C]] [G [W D]] HB HW Hm. assert (LB : 1 <= 49 * m <= bpow radix2 40) by (change (bpow radix2 40) with 1099511627776; lra).
  assert (LW : 1 <= m <= bpow radix2 40) by (change (bpow radix2 40) with 1099511627776; lra).
  destruct (scaled c c0 b _ F V C HB LB) as [[F1 E1] _]. destruct (scaled d d0 w _ G W D HW LW) as [_ [F2 E2]].
  pose proof (prod_le _ _ _ _ C HB) as P1. pose proof (prod_le _ _ _ _ D HW) as P2.
  set (x := dmul c (di b)) in *. set (y := dmul (di w) d) in *. set (p := c0 * IZR b) in *. set (q := d0 * IZR w) in *.
  apply Rabs_le_inv in E1, E2, P1, P2. unfold eps in *.
  assert (BB : 1 <= 55 * m <= bpow radix2 50) by (change (bpow radix2 50) with 1125899906842624; lra).
  destruct (add_ok x y (55 * m) F1 F2) as [F3 E3]; [apply Rabs_le; lra|exact BB|]. destruct (sub_ok x y (55 * m) F1 F2) as [F4 E4]; [apply Rabs_le; lra|exact BB|].
  unfold eps in *. apply Rabs_le_inv in E3, E4. split; (split; [assumption|]); apply Rabs_le; lra.
Qed.
Lemma leak_int (x : double) t r B E m : fin x = true -> Rabs (val x - t) <= 784 * m * eps -> Rabs t + 784 * m * eps <= B -> B < 2147483648 -> 1 <= m <= 30678338 ->
  Rabs (t - r) + 1001/1000 <= E -> exists z, to_int x = Ok z /\ Rabs (IZR z) <= B /\ Rabs (IZR z - r) <= E.
Proof.
  intros F D HB HT Hm HE. pose proof (abs_bound _ _ _ D) as A. destruct (to_int_ok x F) as [z [E1 [A1 [D1 _]]]]; [lra|].
  exists z. split; [exact E1|]. split; [lra|]. pose proof (Rabs_triang (IZR z - val x) ((val x - t) + (t - r))) as T1. pose proof (Rabs_triang (val x - t) (t - r)) as T2.
  replace (IZR z - val x + (val x - t + (t - r))) with (IZR z - r) in T1 by ring. unfold eps in D. lra.
Qed.
Lemma leak_ok c c0 d d0 b w m B r E : near c c0 -> near d d0 -> 0 <= c0 -> 0 <= d0 -> 0 <= B <= 49 -> 1 <= m <= 30678338 ->
  Rabs (IZR b) <= B * m -> Rabs (IZR w) <= m -> Rabs (IZR b - r) <= E -> c0 * B + d0 + 1/1000000 <= B -> c0 * E + 1001/1000 <= E ->
  exists z, leak c d b w = Ok z /\ Rabs (IZR z) <= B * m /\ Rabs (IZR z - (c0 * r + IZR w * d0)) <= E.
Proof.
  intros Hc Hd PC PD HB Hm Hb Hw Hr S1 S2.
  assert (H49 : Rabs (IZR b) <= 49 * m) by (eapply Rle_trans; [exact Hb|apply Rmult_le_compat_r; lra]).
  destruct (mix_ok c c0 d d0 b w m Hc Hd H49 Hw Hm) as [[F D] _].
  assert (TB : Rabs (c0 * IZR b + d0 * IZR w) <= c0 * (B * m) + d0 * m).
  { eapply Rle_trans; [apply Rabs_triang|]. apply Rplus_le_compat; (apply prod_le; [rewrite Rabs_pos_eq by lra; lra|assumption]). }
  apply (leak_int _ _ _ (B * m) E m F D); [|assert (B * m <= 49 * m) by (apply Rmult_le_compat_r; lra); lra|exact Hm|].
  - assert (m * (c0 * B + d0 + 1/1000000) <= m * B) by (apply Rmult_le_compat_l; lra). unfold eps. lra.
  - replace (c0 * IZR b + d0 * IZR w - (c0 * r + IZR w * d0)) with (c0 * (IZR b - r)) by ring.
    rewrite Rabs_mult, (Rabs_pos_eq c0) by lra. assert (c0 * Rabs (IZR b - r) <= c0 * E) by (apply Rmult_le_compat_l; lra). lra.
Qed.
Ltac near_lit m e := let F := fresh in let V := fresh in
  match goal with |- near ?x _ => destruct (sf_val x m e) as [F V]; [vm_compute; reflexivity|]; split; [exact F|]; split; [rewrite V; cbn; unfold eps; apply Rabs_le; lra|apply Rabs_le; lra] end.
Lemma near_c0 : near (lit 99886 100000) (99886/100000). Proof. near_lit 8996931047590587%positive (-53)%Z. Qed.
Lemma near_c1 : near (lit 99332 100000) (99332/100000). Proof. near_lit 8947031163719322%positive (-53)%Z. Qed.
Lemma near_c2 : near (lit 96900 100000) (96900/100000). Proof. near_lit 8727976077844021%positive (-53)%Z. Qed.
Lemma near_c3 : near (lit 86650 100000) (86650/100000). Proof. near_lit 7804738154233070%positive (-53)%Z. Qed.
Lemma near_c4 : near (lit 55000 100000) (55000/100000). Proof. near_lit 4953959590107546%positive (-53)%Z. Qed.
Lemma near_d0 : near (lit 555179 10000000) (555179/10000000). Proof. near_lit 8000972600076559%positive (-57)%Z. Qed.
Lemma near_d1 : near (lit 750759 10000000) (750759/10000000). Proof. near_lit 5409788724232074%positive (-56)%Z. Qed.
Lemma near_d2 : near (lit 1538520 10000000) (1538520/10000000). Proof. near_lit 5543102478961644%positive (-55)%Z. Qed.
Lemma near_d3 : near (lit 3104856 10000000) (3104856/10000000). Proof. near_lit 5593211329855619%positive (-54)%Z. Qed.
Lemma near_d4 : near (lit 5329522 10000000) (5329522/10000000). Proof. near_lit 4800406658652572%positive (-53)%Z. Qed.
Lemma near_c5' : near (lit 7616 10000) (7616/10000). Proof. near_lit 6859882952410740%positive (-53)%Z. Qed.
Lemma near_d5 : near (lit 168980 10000000) (168980/10000000). Proof. near_lit 4870516896211625%positive (-58)%Z. Qed.
Lemma near_w : near (lit 5362 10000) (5362/10000). Proof. near_lit 4829660240392120%positive (-53)%Z. Qed.
Lemma near_g : near (lit 11 100) (11/100). Proof. near_lit 7926335344172073%positive (-56)%Z. Qed.
Lemma near_d6 : near (lit 115926 1000000) (115926/1000000). Proof. near_lit 8353348646440834%positive (-56)%Z. Qed.
Lemma near_c5 : near (Bopp (lit 7616 10000)) (-7616/10000).
Proof.
  destruct near_c5' as [F [V C]]. split; [rewrite is_finite_Bopp; exact F|]. rewrite B2R_Bopp. split; [|apply Rabs_le; lra].
  apply Rabs_le_inv in V. apply Rabs_le. lra.
Qed.
Lemma int_add_ok x y K : Rabs (IZR x) <= K -> forall L, Rabs (IZR y) <= L -> K + L < 2147483648 -> int_add x y = Ok (x + y)%Z /\ Rabs (IZR (x + y)) <= K + L.
Proof.
  intros Hx L Hy H. assert (B : Rabs (IZR (x + y)) <= K + L) by (rewrite plus_IZR; eapply Rle_trans; [apply Rabs_triang|lra]).
  split; [unfold int_add; rewrite fits_small by lra; reflexivity|exact B].
Qed.

(** The states, bounded and close to those of the exact filter bank. *)
Definition close (m : R) (p : ipink) (q : ExpModel.pink) : Prop :=
  (Rabs (IZR (i0 p)) <= 4871/100 * m /\ Rabs (IZR (i0 p) - ExpModel.b0 q) <= 879) /\
  (Rabs (IZR (i1 p)) <= 1124/100 * m /\ Rabs (IZR (i1 p) - ExpModel.b1 q) <= 150) /\
  (Rabs (IZR (i2 p)) <= 497/100 * m /\ Rabs (IZR (i2 p) - ExpModel.b2 q) <= 33) /\
  (Rabs (IZR (i3 p)) <= 233/100 * m /\ Rabs (IZR (i3 p) - ExpModel.b3 q) <= 8) /\
  (Rabs (IZR (i4 p)) <= 119/100 * m /\ Rabs (IZR (i4 p) - ExpModel.b4 q) <= 3) /\
  (Rabs (IZR (i5 p)) <= 71/1000 * m /\ Rabs (IZR (i5 p) - ExpModel.b5 q) <= 5) /\
  (Rabs (IZR (i6 p)) <= 116/1000 * m /\ Rabs (IZR (i6 p) - ExpModel.b6 q) <= 2).
Lemma pink_step m p q w : 1 <= m <= 30678337 -> close m p q -> Rabs (IZR w) <= m ->
  exists p' y, ipink_tick p w = Ok (p', y) /\ close m p' (fst (ExpModel.pink_tick ExpModel.Floating q (IZR w))) /\
    Rabs (IZR y) <= 761/100 * m /\ Rabs (IZR y - snd (ExpModel.pink_tick ExpModel.Floating q (IZR w))) <= 121.
Proof.
  intros Hm [[P0 R0] [[P1 R1] [[P2 R2] [[P3 R3] [[P4 R4] [[P5 R5] [P6 R6]]]]]]] Hw. assert (Hm' : 1 <= m <= 30678338) by lra.
  destruct (leak_ok _ _ _ _ (i0 p) w m (4871/100) (ExpModel.b0 q) 879 near_c0 near_d0) as [z0 [E0 [B0 D0]]]; try assumption; try lra.
  destruct (leak_ok _ _ _ _ (i1 p) w m (1124/100) (ExpModel.b1 q) 150 near_c1 near_d1) as [z1 [E1 [B1 D1]]]; try assumption; try lra.
  destruct (leak_ok _ _ _ _ (i2 p) w m (497/100) (ExpModel.b2 q) 33 near_c2 near_d2) as [z2 [E2 [B2 D2]]]; try assumption; try lra.
  destruct (leak_ok _ _ _ _ (i3 p) w m (233/100) (ExpModel.b3 q) 8 near_c3 near_d3) as [z3 [E3 [B3 D3]]]; try assumption; try lra.
  destruct (leak_ok _ _ _ _ (i4 p) w m (119/100) (ExpModel.b4 q) 3 near_c4 near_d4) as [z4 [E4 [B4 D4]]]; try assumption; try lra.
  destruct (mix_ok _ _ _ _ (i5 p) w m near_c5 near_d5 ltac:(lra) Hw Hm') as [_ [F5 M5]]. cbv zeta in F5, M5.
  destruct (leak_int _ _ (-7616/10000 * ExpModel.b5 q - IZR w * (168980/10000000)) (71/1000 * m) 5 m F5 M5) as [z5 [E5 [B5 D5]]]; try lra.
  { apply Rabs_le_inv in P5. pose proof Hw as Hw'. apply Rabs_le_inv in Hw'. assert (Rabs (-7616/10000 * IZR (i5 p) - 168980/10000000 * IZR w) <= 7616/10000 * (71/1000 * m) + 168980/10000000 * m) by (apply Rabs_le; lra). unfold eps. lra. }
  { apply Rabs_le_inv in R5. assert (Rabs (-7616/10000 * IZR (i5 p) - 168980/10000000 * IZR w - (-7616/10000 * ExpModel.b5 q - IZR w * (168980/10000000))) <= 7616/10000 * 5) by (apply Rabs_le; lra). lra. }
  destruct (int_add_ok z0 z1 _ B0 _ B1 ltac:(lra)) as [A1 S1]. destruct (int_add_ok _ z2 _ S1 _ B2 ltac:(lra)) as [A2 S2]. destruct (int_add_ok _ z3 _ S2 _ B3 ltac:(lra)) as [A3 S3].
  destruct (int_add_ok _ z4 _ S3 _ B4 ltac:(lra)) as [A4 S4]. destruct (int_add_ok _ z5 _ S4 _ B5 ltac:(lra)) as [A5 S5]. destruct (int_add_ok _ (i6 p) _ S5 _ P6 ltac:(lra)) as [A6 S6].
  set (s := (z0 + z1 + z2 + z3 + z4 + z5 + i6 p)%Z) in *.
  assert (HL : 1 <= m <= bpow radix2 40) by (change (bpow radix2 40) with 1099511627776; lra).
  destruct near_w as [Gw [Vw Cw]]. destruct near_g as [Gg [Vg Cg]]. destruct near_d6 as [G6 [V6 C6]].
  destruct (scaled _ _ w m Gw Vw Cw Hw HL) as [_ [Fw Ew]]. destruct (scaled _ _ w m G6 V6 C6 Hw HL) as [_ [F6 E6]].
  assert (SB : Rabs (IZR s) <= 69 * m) by lra. destruct (di_real s (69 * m) SB ltac:(lra)) as [Fs Vs].
  set (ww := dmul (di w) (lit 5362 10000)) in *. apply Rabs_le_inv in Ew. pose proof Hw as Hw'. apply Rabs_le_inv in Hw'. unfold eps in Ew.
  pose proof SB as SB'. apply Rabs_le_inv in SB'. apply Rabs_le_inv in S6.
  assert (BB : 1 <= 70 * m <= bpow radix2 50) by (change (bpow radix2 50) with 1125899906842624; lra).
  destruct (add_ok (di s) ww (70 * m) Fs Fw) as [Fa Ea]; [rewrite Vs; apply Rabs_le; lra|exact BB|]. rewrite Vs in Ea. apply Rabs_le_inv in Ea. unfold eps in Ea.
  set (a := dadd (di s) ww) in *.
  assert (AB : Rabs (val a) <= 70 * m) by (apply Rabs_le; lra).
  assert (GA : Rabs ((val (lit 11 100) - 11/100) * val a) <= eps * (70 * m)) by (apply prod_le; assumption).
  apply Rabs_le_inv in GA. apply Rabs_le_inv in AB. unfold eps in GA.
  assert (GE : val a * val (lit 11 100) = 11/100 * val a + (val (lit 11 100) - 11/100) * val a) by ring.
  destruct (mul_ok a (lit 11 100) (70 * m) Fa Gg) as [Fy Ey]; [rewrite GE; apply Rabs_le; lra|exact BB|]. rewrite GE in Ey. apply Rabs_le_inv in Ey. unfold eps in Ey.
  set (o := dmul a (lit 11 100)) in *. set (g := (val (lit 11 100) - 11/100) * val a) in *.
  assert (OB : Rabs (val o) <= 761/100 * m) by (apply Rabs_le; lra).
  destruct (to_int_ok o Fy) as [y [EY [AY [DY _]]]]; [lra|]. apply Rabs_def2 in DY.
  apply Rabs_le_inv in E6. unfold eps in E6. set (w6 := dmul (di w) (lit 115926 1000000)) in *.
  assert (OB6 : Rabs (val w6) <= 116/1000 * m) by (apply Rabs_le; lra).
  destruct (to_int_ok w6 F6) as [z6 [EZ [AZ [DZ _]]]]; [lra|]. apply Rabs_def2 in DZ.
  exists (mkIpink z0 z1 z2 z3 z4 z5 z6), y. split.
  { unfold ipink_tick. rewrite E0. cbn [bind]. rewrite E1. cbn [bind]. rewrite E2. cbn [bind]. rewrite E3. cbn [bind]. rewrite E4. cbn [bind]. rewrite E5. cbn [bind].
    rewrite A1. cbn [bind]. rewrite A2. cbn [bind]. rewrite A3. cbn [bind]. rewrite A4. cbn [bind]. rewrite A5. cbn [bind]. rewrite A6. cbn [bind].
    fold s. fold ww. fold a. fold o. rewrite EY. cbn [bind]. fold w6. rewrite EZ. reflexivity. }
  unfold ExpModel.pink_tick. cbn [fst snd ExpModel.assign]. split; [|split; [lra|]].
  - unfold close. cbn [i0 i1 i2 i3 i4 i5 i6 ExpModel.b0 ExpModel.b1 ExpModel.b2 ExpModel.b3 ExpModel.b4 ExpModel.b5 ExpModel.b6].
    repeat split; try assumption; [lra|]. apply Rabs_le. lra.
  - assert (SE : IZR s = IZR z0 + IZR z1 + IZR z2 + IZR z3 + IZR z4 + IZR z5 + IZR (i6 p)) by (unfold s; rewrite !plus_IZR; reflexivity).
    apply Rabs_le_inv in D0, D1, D2, D3, D4, D5, R6. apply Rabs_le. lra.
Qed.

(** For white noise in [-M, M] with 70 M below the range of int, pink noise is always defined, stays in
    [-7.61 M, 7.61 M] and follows the exact filter bank ([ExpModel.pink_run], whose response is
    C60_pink_response) to within 121, however long it runs. *)
Theorem C148_pink M ws : (1 <= M)%Z -> (70 * M < 2 ^ 31)%Z -> Forall (fun w => (Z.abs w <= M)%Z) ws ->
  exists ys, ipink_run ipink_new ws = Ok ys /\ Forall (fun y => (100 * Z.abs y <= 761 * M)%Z) ys /\
    Forall2 (fun y i => Rabs (IZR y - i) <= 121) ys (ExpModel.pink_run ExpModel.Floating ExpModel.pink_new (map IZR ws)).
Proof.
  intros HM M7 F. assert (Hm : 1 <= IZR M <= 30678337) by (split; apply IZR_le; lia).
  assert (G : forall p q, close (IZR M) p q -> exists ys, ipink_run p ws = Ok ys /\ Forall (fun y => (100 * Z.abs y <= 761 * M)%Z) ys /\
    Forall2 (fun y i => Rabs (IZR y - i) <= 121) ys (ExpModel.pink_run ExpModel.Floating q (map IZR ws))).
  2: { apply G. unfold close; cbn. rewrite !Rminus_0_r, !Rabs_R0. repeat split; lra. }
  induction F as [|w ws W F IH]; intros p q C; [exists []; repeat split; constructor|].
  assert (Hw : Rabs (IZR w) <= IZR M) by (rewrite <- abs_IZR; apply IZR_le, W).
  destruct (pink_step _ p q w Hm C Hw) as [p' [y [E [C' [B D]]]]]. cbn [ipink_run map ExpModel.pink_run]. rewrite E. cbn [bind fst snd].
  destruct (IH p' _ C') as [ys [E2 [B2 T]]]. rewrite E2. exists (y :: ys). split; [reflexivity|]. split; constructor; auto.
  apply le_IZR. rewrite !mult_IZR, abs_IZR. lra.
Qed.
(** With the whole range of int the sum of the states overflows. *)
Theorem C148_pink_overflow_refuted : exists ws, Forall (fun w => (- 2 ^ 31 <= w < 2 ^ 31)%Z) ws /\ ipink_run ipink_new ws = UB.
Proof.
  exists (repeat (2 ^ 31 - 1)%Z 30). split; [apply Forall_forall; intros x Hx; apply repeat_spec in Hx; subst x; lia|]. vm_compute. reflexivity.
Qed.

(** White noise of +-1000, as drawn from a range of audio samples. *)
Example C148_example : Forall (fun w => (Z.abs w <= 1000)%Z) [1000; -500; 1000; 1000]%Z /\ (7 * 1000 < 2 ^ 32)%Z /\ (70 * 1000 < 2 ^ 31)%Z /\
  ibrown [1000; -500; 1000; 1000]%Z = Ok [66; 28; 94; 161]%Z /\ ipink_run ipink_new [1000; -500; 1000; 1000]%Z = Ok [180; 15; 199; 312]%Z.
Proof. split; [repeat (apply Forall_cons; [lia|]); apply Forall_nil|]. split; [lia|]. split; [lia|]. split; vm_compute; reflexivity. Qed.
Print Assumptions C148_brown.
Print Assumptions C148_brown_overflow_refuted.
Print Assumptions C148_brown_silent_refuted.
Print Assumptions C148_pink.
Print Assumptions C148_pink_overflow_refuted.
