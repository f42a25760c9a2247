(** First-order Chebyshev low shelves whose boost does not exceed the ripple: supporting lemmas for C85. *)
From Coq Require Import Psatz Lia List.
From Verif Require Import RealBase RealBaseProofs BaseProofs Cplx CplxProofs PolyProofs BiquadModel BiquadSpec BiquadProofs.
From Verif Require Import StabilityProofs CascadeProofs DesignModel DesignSpec DesignProofs DesignProofs2 LayoutModel LayoutProofs BilinearProofs ButterProofs ButterShelfProofs.
From Verif Require Import ChebySpec ChebyProofs ChebyModel ChebyDesign ChebyShelf.
Import ListNotations.
Local Open Scope R_scope.

Lemma clamp_b_boost G : 0 < G < 1 -> 1 < clamp_b G /\ (1 - G) * sinh (ln (clamp_b G)) <= (1 - G) * (1 - G) * (3 / 5).
Proof.
  intros HG. set (d := 1 - G). assert (Hd : 0 < d < 1) by (unfold d; lra).
  set (s := sqrt (1 + d * d)).
  assert (S2 : s * s = 1 + d * d) by (apply sqrt_sqrt; nra).
  assert (SP : 0 < s) by (apply sqrt_lt_R0; nra).
  assert (S1 : 1 < s) by nra.
  assert (SU : s <= 1 + d * d / 2) by nra.
  assert (B1 : clamp_b G = 1 + (s - 1) / d).
  { unfold clamp_b. replace (1 + 1 / ((G - 1) * (G - 1))) with ((1 + d * d) / (d * d)) by (unfold d; field; lra).
    rewrite sqrt_div_alt by nra. rewrite sqrt_square by lra. fold s. unfold d. field. lra. }
  set (t := (s - 1) / d) in *.
  assert (T1 : 0 < t) by (apply div_pos; lra).
  assert (T2 : t <= d / 2).
  { unfold t. apply (Rmult_le_reg_r d); [lra|]. unfold Rdiv at 1. rewrite Rmult_assoc, Rinv_l by lra. lra. }
  split; [lra|]. unfold sinh. rewrite exp_Ropp, exp_ln by lra. rewrite B1.
  assert (E : (1 + t - / (1 + t)) / 2 = t * (2 + t) / (2 * (1 + t))) by (field; lra). rewrite E.
  assert (Q : t * (2 + t) / (2 * (1 + t)) <= t).
  { apply (Rmult_le_reg_r (2 * (1 + t))); [lra|]. unfold Rdiv. rewrite Rmult_assoc, Rinv_l by lra. nra. }
  nra.
Qed.

Lemma lp_at f x : 1 - f * x <> 0 -> lp_transform f (Fin (RtoC x)) = Ok (RtoC ((1 + f * x) / (1 - f * x))).
Proof.
  intros N. simpl. rewrite !Cscal_RtoC. assert (E : (C1 - RtoC f * RtoC x)%C <> C0).
  { intros X. apply (f_equal Re) in X. simpl in X. apply N. lra. }
  rewrite cdiv_ok by auto. f_equal. apply C_eq; unfold Cdiv, Cinv, Cnorm2; simpl; field; simpl; nra.
Qed.

Lemma first_order_shelf checks cap f p0 z0 : (1 <= cap)%nat -> 0 < f -> p0 < 0 -> z0 <> 0 -> 1 - f * z0 <> 0 ->
  exists c h, bind (transform_layout checks (lp_transform f) PI (analog cap [] (Some (p0, Fin (RtoC z0))) PI 1) (lay_new cap)) (make_cascade cap) = Ok c /\
    cas_response c at_dc h /\ Cmod h = Rabs z0 / - p0.
Proof.
  intros Hc Hf Hp Hz N. set (T := fun e : ecomplex => match e with Inf => RtoC (-1) | Fin c => RtoC ((1 + f * Re c) / (1 - f * Re c)) end).
  assert (P1 : 0 < 1 - f * p0) by nra.
  rewrite (transform_layout_ok checks (lp_transform f) T).
  2:{ intros cz []. }
  2:{ intros cz E. injection E as <-. cbn [fst snd]. rewrite !lp_at by lra. unfold T. cbn [Re RtoC fst snd Im]. auto. }
  2:{ simpl. lia. }
  cbn [bind].
  set (p := (1 + f * p0) / (1 - f * p0)). set (q := (1 + f * z0) / (1 - f * z0)).
  assert (Hp1 : 1 - p = 2 * f * - p0 / (1 - f * p0)) by (unfold p; field; lra).
  assert (Hp2 : 1 + p = 2 / (1 - f * p0)) by (unfold p; field; lra).
  assert (Hq1 : 1 - q = - (2 * f * z0) / (1 - f * z0)) by (unfold q; field; lra).
  assert (Hq2 : 1 + q = 2 / (1 - f * z0)) by (unfold q; field; lra).
  assert (Hpa : Rabs p < 1).
  { assert (0 < 2 * f * - p0 / (1 - f * p0)) by (apply div_pos; nra). assert (0 < 2 / (1 - f * p0)) by (apply div_pos; lra). unfold Rabs. destruct (Rcase_abs p); lra. }
  assert (Hm1 : H (single_biquad p q) (RtoC (-1)) = RtoC ((1 + q) / (-1 - p))).
  { destruct (single_at_real p q (-1) Hpa (or_intror eq_refl)) as [E _]. rewrite E. f_equal. f_equal. ring. }
  assert (Hd1 : H (single_biquad p q) (RtoC 1) = RtoC ((1 - q) / (1 - p))).
  { destruct (single_at_real p q 1 Hpa (or_introl eq_refl)) as [E _]. rewrite E. f_equal. f_equal. ring. }
  assert (MB : make_biquad (dsingle T (p0, Fin (RtoC z0))) = Ok (single_biquad p q)).
  { unfold make_biquad, dsingle. cbn [zero1 zero2 pole1 pole2]. unfold single_pole; cbn [pole2 zero2 eis_zero]. rewrite is_zero_C0. cbn [andb].
    unfold T. cbn [fst snd Re RtoC]. apply bq_single. }
  assert (NQ : 1 + q <> 0).
  { rewrite Hq2. intros X. apply (f_equal (fun y => y * (1 - f * z0))) in X. unfold Rdiv in X. rewrite Rmult_assoc, Rinv_l in X by auto. lra. }
  assert (NP : 1 + p > 0) by (rewrite Hp2; apply div_pos; lra).
  destruct (make_cascade_ok mkb cap (map (dpair T) [] ++ olist (dsingle T) (Some (p0, Fin (RtoC z0)))) 1 PI 1) as [c [E [_ [_ [_ Hr]]]]].
  - discriminate.
  - reflexivity.
  - exact Hc.
  - intros x [<-|[]]. unfold mkb. rewrite MB. split; [reflexivity|]. split.
    + split; [apply single_stable; auto|split; [reflexivity|split; reflexivity]].
    + rewrite Cexp_PI, Hm1. intros X. apply (f_equal Re) in X. cbn [Re RtoC fst C0] in X.
      apply NQ. apply (f_equal (fun y => y * (-1 - p))) in X. unfold Rdiv in X. rewrite Rmult_assoc, Rinv_l in X by lra. simpl in X. lra.
  - eexists c, _. split; [exact E|]. split; [apply Hr; unfold at_dc; change C1 with (RtoC 1); rewrite Cmod_RtoC; apply Rabs_R1|].
    cbn [map app olist cprod]. unfold mkb. rewrite MB, Cexp_PI. replace at_dc with (RtoC 1) by reflexivity. rewrite Hm1, Hd1.
    rewrite !Cmod_mul, !Cmod_RtoC. replace (Cmod C1) with 1 by (change C1 with (RtoC 1); rewrite Cmod_RtoC, Rabs_R1; reflexivity). rewrite !Rmult_1_r.
    assert (NP1 : 1 - p > 0) by (rewrite Hp1; apply div_pos; nra).
    unfold Rdiv at 1. rewrite Rmult_1_l. rewrite Rabs_inv, Rabs_Rabsolu.
    unfold Rdiv. rewrite !Rabs_mult, !Rabs_inv.
    rewrite (Rabs_right (1 - p)) by lra. replace (Rabs (-1 - p)) with (1 + p) by (rewrite Rabs_left; lra).
    rewrite Hp1, Hp2, Hq1, Hq2. unfold Rdiv. rewrite !Rabs_mult, !Rabs_inv, Rabs_Ropp, !Rabs_mult.
    rewrite (Rabs_right 2), (Rabs_right f) by lra.
    assert (A : 0 < Rabs (1 - f * z0)) by (apply Rabs_pos_lt; auto). field. repeat split; lra.
Qed.

Lemma cheby_boost_analog checks cap gain ripple : (1 <= cap)%nat -> 0 < gain -> gain <= ripple ->
  let G := pow10 (- gain / 20) in
  cheby_shelf_analog checks (lay_new cap) 1 gain ripple = Ok (analog cap [] (Some (- sinh (ln (clamp_b G)), Fin (RtoC (/ (1 - G))))) PI 1).
Proof.
  intros Hc Hg Hr G. assert (HG : 0 < G < 1).
  { split; [apply exp_pos|]. unfold G, pow10. rewrite <- (Rpower_O 10) by lra. apply pow10_mono. lra. }
  destruct (clamp_b_boost G HG) as [B1 _].
  assert (CR : - gain - clamp_ripple (- gain) ripple = 0).
  { unfold clamp_ripple. rewrite Rabs_left by lra. destruct (Rle_dec (- - gain) ripple); [|lra]. destruct (Rlt_dec (- gain) 0); lra. }
  assert (GB : pow10 ((- gain - clamp_ripple (- gain) ripple) / 20) = 1).
  { rewrite CR. replace (0 / 20) with 0 by field. apply Rpower_O. lra. }
  rewrite (cheby_shelf_core checks cap 1 gain ripple (G - 1) (ln (clamp_b G) / INR 1) (clamp_b G)); auto; try lra; try lia.
  - assert (D : forall x, x / 1 = x) by (intros; field).
    unfold cs_pairs, cs_odd, mk_pairs, mk_odd, shelf_v. simpl (Nat.odd 1). simpl (1 / 2)%nat. cbn [seq map]. cbn iota. simpl (INR 1). rewrite !D, sinh_arcsinh. replace (- (1 / (G - 1))) with (/ (1 - G)) by (field; lra). reflexivity.
  - rewrite GB. destruct (Req_EM_T 1 1); [reflexivity|congruence].
  - rewrite GB. unfold clamp_b. fold G. ring.
Qed.

Lemma singular_shelf checks cap f p0 z0 : (1 <= cap)%nat -> 0 < f -> p0 < 0 -> f * z0 = 1 ->
  transform_layout checks (lp_transform f) PI (analog cap [] (Some (p0, Fin (RtoC z0))) PI 1) (lay_new cap) = NonFinite.
Proof.
  intros Hc Hf Hp N. assert (P1 : 0 < 1 - f * p0) by nra. destruct cap as [|cap]; [lia|].
  unfold transform_layout. change (num_poles (analog (S cap) [] (Some (p0, Fin (RtoC z0))) PI 1)) with 1%nat.
  change (Nat.odd 1) with true. change (1 / 2)%nat with 0%nat. cbn [transform_pairs bind].
  change (lay_get (analog (S cap) [] (Some (p0, Fin (RtoC z0))) PI 1) 0) with (Ok (spair (p0, Fin (RtoC z0)))). cbn [bind].
  change (pole1 (spair (p0, Fin (RtoC z0)))) with (RtoC p0). change (zero1 (spair (p0, Fin (RtoC z0)))) with (Fin (RtoC z0)).
  rewrite lp_at by lra. cbn [bind]. unfold lp_transform. rewrite !Cscal_RtoC.
  replace (C1 - RtoC f * RtoC z0)%C with C0; [unfold cdiv; rewrite is_zero_C0; reflexivity|]. rewrite <- RtoC_mul, N. apply C_eq; simpl; ring.
Qed.

Lemma decibel_89 gain : 0 < gain <= 1 -> 0 < 1 - pow10 (- gain / 20) <= 11 / 100.
Proof.
  intros Hg. assert (P0 : Rpower 10 0 = 1) by (apply Rpower_O; lra). unfold pow10. split.
  - assert (Rpower 10 (- gain / 20) < Rpower 10 0) by (apply pow10_mono; lra). lra.
  - set (y := Rpower 10 (- gain / 20)). assert (Y : 0 < y) by apply exp_pos.
    assert (E : y ^ 20 = Rpower 10 (- gain)).
    { rewrite <- Rpower_pow by auto. unfold y. rewrite Rpower_mult. f_equal. simpl. field. }
    assert (L : / 10 <= y ^ 20).
    { rewrite E. rewrite <- (Rpower_1 10) at 1 by lra. rewrite <- Rpower_Ropp. destruct (Req_dec gain 1) as [->|N]; [lra|]. left. apply pow10_mono. lra. }
    destruct (Rle_lt_dec (89 / 100) y) as [|X]; [lra|]. exfalso.
    assert (y ^ 20 <= (89 / 100) ^ 20) by (apply pow_incr; lra).
    assert ((89 / 100) ^ 20 < / 10) by (cbv [pow]; lra). lra.
Qed.

Lemma cheby_boost_hole checks cap fs gain ripple : (1 <= cap)%nat -> 0 < fs -> 0 < gain -> gain <= ripple ->
  exists fc, valid_freq fc fs /\ cheby_lowshelf checks cap 1 fs fc gain ripple = NonFinite.
Proof.
  intros Hc Hfs Hg Hr. pose proof (cheby_boost_analog checks cap gain ripple Hc Hg Hr) as EA. cbv zeta in EA.
  set (G := pow10 (- gain / 20)) in *. assert (HG : 0 < G < 1).
  { split; [apply exp_pos|]. unfold G, pow10. rewrite <- (Rpower_O 10) by lra. apply pow10_mono. lra. }
  destruct (clamp_b_boost G HG) as [B1 _].
  assert (SP : 0 < sinh (ln (clamp_b G))) by (apply sinh_pos; rewrite <- ln_1; apply ln_increasing; lra).
  pose proof PI_RGT_0 as PP. assert (A1 : 0 < atan (1 - G)) by (rewrite <- atan_0; apply atan_increasing; lra).
  assert (A2 : atan (1 - G) < PI / 2) by apply atan_bound.
  set (fc := fs * (atan (1 - G) / PI)).
  assert (EF : PI * (fc / fs) = atan (1 - G)) by (unfold fc; field; lra).
  assert (V : valid_freq fc fs).
  { unfold fc. assert (Q : 0 < atan (1 - G) / PI < / 2).
    { split; [apply div_pos; lra|]. apply (Rmult_lt_reg_r PI); [lra|]. unfold Rdiv. rewrite Rmult_assoc, Rinv_l by lra. lra. }
    split; nra. }
  exists fc. split; [exact V|]. destruct V as [V1 V2]. pose proof (norm_range fc fs V1 V2) as R1. destruct (tan_pos_range _ R1) as [TP CP].
  unfold cheby_lowshelf. rewrite rdiv_ok by lra. cbn [bind]. rewrite EA. cbn [bind]. unfold lp_transformer. rewrite rtan_ok by lra. cbn [bind].
  change (lay_w (analog cap [] (Some (- sinh (ln (clamp_b G)), Fin (RtoC (/ (1 - G))))) PI 1)) with PI.
  rewrite singular_shelf; [reflexivity|auto|auto|lra|]. rewrite EF. rewrite tan_atan. field. lra.
Qed.
