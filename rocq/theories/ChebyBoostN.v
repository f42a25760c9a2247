(** Chebyshev low shelves of every order whose boost does not exceed the ripple: supporting lemmas for C85. *)
From Coq Require Import Psatz Lia List.
From Verif Require Import RealBase RealBaseProofs BaseProofs Cplx CplxProofs PolyProofs BiquadModel BiquadSpec BiquadProofs.
From Verif Require Import StabilityProofs CascadeProofs DesignModel DesignSpec DesignProofs DesignProofs2 LayoutModel LayoutProofs BilinearProofs ButterProofs ButterShelfProofs.
From Verif Require Import ChebySpec ChebyProofs ChebyModel ChebyDesign ChebyShelf ChebyBoost FreeZeros.
Import ListNotations.
Local Open Scope R_scope.

(** The constants of the law, spelled out. *)
Lemma clamp_b_sinh G : 0 < G < 1 -> let d := 1 - G in let b := 1 + (sqrt (1 + d * d) - 1) / d in clamp_b G = b /\ sinh (ln (clamp_b G)) = (b - / b) / 2.
Proof.
  intros HG d b. assert (Hd : 0 < d < 1) by (unfold d; lra). assert (B1 : clamp_b G = b).
  { unfold clamp_b, b. replace (1 + 1 / ((G - 1) * (G - 1))) with ((1 + d * d) / (d * d)) by (unfold d; field; lra).
    rewrite sqrt_div_alt by nra. rewrite sqrt_square by lra. unfold d. field. lra. }
  split; [exact B1|]. destruct (clamp_b_boost G HG) as [P _]. unfold sinh. rewrite exp_Ropp, exp_ln by lra. rewrite B1. reflexivity.
Qed.
Lemma sinh_opp x : sinh (- x) = - sinh x.
Proof. unfold sinh. rewrite Ropp_involutive. field. Qed.
Lemma arcsinh_opp x : arcsinh (- x) = - arcsinh x.
Proof. rewrite <- (arcsinh_sinh (- arcsinh x)). rewrite sinh_opp, sinh_arcsinh. reflexivity. Qed.

(** The zeros of an [n]-th order boost by 1/G are those of a Chebyshev ellipse mirrored into the right half plane. *)
Definition boost_v (n : nat) (G : R) : R := arcsinh (/ (1 - G)) / INR n.

Lemma cheby_boost_analog_n checks cap n gain ripple : (1 <= n <= cap)%nat -> 0 < gain -> gain <= ripple ->
  let G := pow10 (- gain / 20) in let u := ln (clamp_b G) / INR n in let v := - boost_v n G in
  cheby_shelf_analog checks (lay_new cap) n gain ripple = Ok (analog cap (cs_pairs n u v) (cs_odd n u v) PI 1).
Proof.
  intros Hn Hg Hr G u v. assert (HG : 0 < G < 1).
  { split; [apply exp_pos|]. unfold G, pow10. rewrite <- (Rpower_O 10) by lra. apply pow10_mono. lra. }
  destruct (clamp_b_boost G HG) as [B1 _].
  assert (CR : - gain - clamp_ripple (- gain) ripple = 0).
  { unfold clamp_ripple. rewrite Rabs_left by lra. destruct (Rle_dec (- - gain) ripple); [|lra]. destruct (Rlt_dec (- gain) 0); lra. }
  assert (GB : pow10 ((- gain - clamp_ripple (- gain) ripple) / 20) = 1).
  { rewrite CR. replace (0 / 20) with 0 by field. apply Rpower_O. lra. }
  assert (EV : v = shelf_v n (G - 1)).
  { unfold v, boost_v, shelf_v. replace (1 / (G - 1)) with (- / (1 - G)) by (field; lra). rewrite arcsinh_opp. unfold Rdiv. ring. }
  rewrite EV. apply cheby_shelf_core with (b := clamp_b G); auto; try lra; try lia.
  - rewrite GB. destruct (Req_EM_T 1 1); [reflexivity|congruence].
  - rewrite GB. unfold clamp_b. fold G. ring.
Qed.

Lemma mirrored_zero T n v i : 0 < T -> (i < n / 2)%nat -> (C1 - RtoC T * Cconj (ch_pole n v i))%C <> C0.
Proof.
  intros HT Hi E. destruct (thetak_sc n i Hi) as [Sp Cp]. apply (f_equal Im) in E. unfold ch_pole, cc in E; simpl in E.
  assert (0 < cosh v * cos (thetak n i)) by (apply Rmult_lt_0_compat; [apply cosh_pos|auto]). nra.
Qed.
Lemma boost_free s T n u v : s = 1 \/ s = -1 -> 0 < T -> 0 < u -> (Nat.odd n = true -> 1 + T * sinh v <> 0) ->
  free_ok s T (cs_pairs n u v) (cs_odd n u v) /\
  forall cz, In cz (flat (cs_pairs n u v) (cs_odd n u v)) -> exists zt, snd cz = Fin zt /\ (C1 - RtoC T * zt)%C <> C0 /\ Re (fst cz) < 0.
Proof.
  intros Hs HT Hu HO. pose proof (sinh_pos u Hu) as SU.
  assert (ODD : Nat.odd n = true -> (C1 - RtoC T * RtoC (- sinh v))%C <> C0).
  { intros O E. apply (HO O). apply (f_equal Re) in E. simpl in E. lra. }
  split.
  - constructor; auto.
    + intros cz HI. apply in_map_iff in HI. destruct HI as [i [<- HI]]. apply in_seq in HI. assert (Hi : (i < n / 2)%nat) by lia.
      destruct (thetak_sc n i Hi) as [Sp Cp]. cbn [fst snd]. split; [|split].
      * unfold ch_pole, cc; simpl. assert (0 < sinh u * sin (thetak n i)) by (apply Rmult_lt_0_compat; auto). lra.
      * apply mirrored_zero; auto.
      * right. unfold ch_pole, cc; simpl. assert (0 < cosh u * cos (thetak n i)) by (apply Rmult_lt_0_compat; [apply cosh_pos|auto]). intros EI; lra.
    + intros cz HC. unfold cs_odd, mk_odd in HC. destruct (Nat.odd n) eqn:Eo; [|discriminate]. injection HC as <-. cbn [fst snd]. split; [lra|]. split; [apply ODD; auto|]. intros c E; injection E as <-. reflexivity.
  - intros cz HI. apply in_flat_mk in HI. destruct HI as [[i [Hi [->| ->]]]|[O ->]]; cbn [fst snd econj]; eexists; (split; [reflexivity|]).
    + destruct (thetak_sc n i Hi) as [Sp Cp]. split; [apply mirrored_zero; auto|]. unfold ch_pole, cc; simpl. assert (0 < sinh u * sin (thetak n i)) by (apply Rmult_lt_0_compat; auto). lra.
    + destruct (thetak_sc n i Hi) as [Sp Cp]. split; [|unfold ch_pole, cc; simpl; assert (0 < sinh u * sin (thetak n i)) by (apply Rmult_lt_0_compat; auto); lra].
      intros E. apply (f_equal Im) in E. unfold ch_pole, cc in E; simpl in E.
      assert (0 < cosh v * cos (thetak n i)) by (apply Rmult_lt_0_compat; [apply cosh_pos|auto]). nra.
    + split; [apply ODD; auto|]. simpl. lra.
Qed.

Lemma cheby_boost_ok checks cap n fs fc gain ripple : (1 <= n <= cap)%nat -> valid_freq fc fs -> 0 < gain -> gain <= ripple ->
  let G := pow10 (- gain / 20) in (Nat.odd n = true -> tan (PI * (fc / fs)) * sinh (boost_v n G) <> 1) ->
  exists c, cheby_lowshelf checks cap n fs fc gain ripple = Ok c /\ built cap n c /\
    forall f, 0 <= f -> 2 * f < fs -> exists h, cas_response c (at_freq f fs) h /\
      let t := cheb n (tan (PI * (f / fs)) / tan (PI * (fc / fs))) in
      Cnorm2 h = (t * t + / (1 - G) * / (1 - G)) / (t * t + sinh (ln (clamp_b G)) * sinh (ln (clamp_b G))).
Proof.
  intros Hn HV Hg Hr G HO. pose proof (cheby_boost_analog_n checks cap n gain ripple Hn Hg Hr) as EA. cbv zeta in EA. fold G in EA.
  assert (HG : 0 < G < 1).
  { split; [apply exp_pos|]. unfold G, pow10. rewrite <- (Rpower_O 10) by lra. apply pow10_mono. lra. }
  destruct (clamp_b_boost G HG) as [B1 _]. set (u := ln (clamp_b G) / INR n) in *. set (v := - boost_v n G) in *.
  assert (UP : 0 < u) by (apply div_pos; [rewrite <- ln_1; apply ln_increasing; lra|apply lt_0_INR; lia]).
  destruct (free_low checks cap n (cs_pairs n u v) (cs_odd n u v) fc fs) as [c [E [B F]]]; auto.
  - intros TP. apply boost_free; auto. intros O X. apply (HO O). unfold v in X. rewrite sinh_opp in X. lra.
  - apply mk_count.
  - exists c. split; [|split; [exact B|]].
    + unfold cheby_lowshelf. rewrite rdiv_ok by (destruct HV; lra). cbn [bind]. rewrite EA. exact E.
    + intros f F1 F2. destruct (F f F1 F2) as [h [Hh Hm]]. exists h. split; auto. cbv zeta. rewrite Hm, cs_product by (auto; lia).
      assert (HI : INR n <> 0) by (apply INR_neq0; lia).
      replace (INR n * u) with (ln (clamp_b G)) by (unfold u; field; auto). replace (INR n * v) with (- arcsinh (/ (1 - G))) by (unfold v, boost_v; field; auto).
      rewrite sinh_opp, sinh_arcsinh. f_equal. ring.
Qed.

Lemma cheby_boost_high checks cap n fs fc gain ripple : (1 <= n <= cap)%nat -> valid_freq fc fs -> 0 < gain -> gain <= ripple ->
  let G := pow10 (- gain / 20) in (Nat.odd n = true -> sinh (boost_v n G) <> tan (PI * (fc / fs))) ->
  exists c, cheby_highshelf checks cap n fs fc gain ripple = Ok c /\ built cap n c /\
    forall f, 0 < f -> 2 * f <= fs -> exists h, cas_response c (at_freq f fs) h /\
      let t := cheb n (tan (PI * (fc / fs)) * (cos (PI * (f / fs)) / sin (PI * (f / fs)))) in
      Cnorm2 h = (t * t + / (1 - G) * / (1 - G)) / (t * t + sinh (ln (clamp_b G)) * sinh (ln (clamp_b G))).
Proof.
  intros Hn HV Hg Hr G HO. pose proof (cheby_boost_analog_n checks cap n gain ripple Hn Hg Hr) as EA. cbv zeta in EA. fold G in EA.
  assert (HG : 0 < G < 1).
  { split; [apply exp_pos|]. unfold G, pow10. rewrite <- (Rpower_O 10) by lra. apply pow10_mono. lra. }
  destruct (clamp_b_boost G HG) as [B1 _]. set (u := ln (clamp_b G) / INR n) in *. set (v := - boost_v n G) in *.
  assert (UP : 0 < u) by (apply div_pos; [rewrite <- ln_1; apply ln_increasing; lra|apply lt_0_INR; lia]).
  destruct (free_high checks cap n (cs_pairs n u v) (cs_odd n u v) fc fs) as [c [E [B F]]]; auto.
  - intros TP. apply boost_free; auto. intros O X. apply (HO O). unfold v in X. rewrite sinh_opp in X.
    assert (TN : tan (PI * (fc / fs)) <> 0) by (intros TZ; rewrite TZ in TP; clear -TP; rewrite Rinv_0 in TP; lra).
    apply (Rmult_eq_reg_l (/ tan (PI * (fc / fs)))); [|apply Rinv_neq_0_compat, TN]. rewrite (Rinv_l _ TN). lra.
  - apply mk_count.
  - exists c. split; [|split; [exact B|]].
    + unfold cheby_highshelf. rewrite rdiv_ok by (destruct HV; lra). cbn [bind]. rewrite EA. exact E.
    + intros f F1 F2. destruct (F f F1 F2) as [h [Hh Hm]]. exists h. split; auto. cbv zeta. rewrite Hm, cs_product by (auto; lia). rewrite cheb_opp_sq.
      assert (HI : INR n <> 0) by (apply INR_neq0; lia).
      replace (INR n * u) with (ln (clamp_b G)) by (unfold u; field; auto). replace (INR n * v) with (- arcsinh (/ (1 - G))) by (unfold v, boost_v; field; auto).
      rewrite sinh_opp, sinh_arcsinh. f_equal. ring.
Qed.

Lemma boost_at_0 n gain : 0 < gain <= 1 -> let G := pow10 (- gain / 20) in
  (if Nat.odd n then 10000 else 81) < (cheb n 0 * cheb n 0 + / (1 - G) * / (1 - G)) / (cheb n 0 * cheb n 0 + sinh (ln (clamp_b G)) * sinh (ln (clamp_b G))).
Proof.
  intros Hg G. pose proof (decibel_89 gain Hg) as Hd. pose proof (exp_pos (- gain / 20 * ln 10)) as PG. fold (Rpower 10 (- gain / 20)) in PG. fold (pow10 (- gain / 20)) in PG. fold G in Hd, PG.
  rewrite cheb_at_0. destruct (clamp_b_boost G ltac:(lra)) as [B1 B2].
  assert (SP : 0 < sinh (ln (clamp_b G))) by (apply sinh_pos; rewrite <- ln_1; apply ln_increasing; lra).
  set (su := sinh (ln (clamp_b G))) in *. set (d := 1 - G) in *.
  assert (SU : su <= d * (3 / 5)) by (apply (Rmult_le_reg_l d); lra).
  assert (S2 : 0 < su * su <= (d * (3 / 5)) * (d * (3 / 5))) by (split; [apply Rmult_lt_0_compat; lra|apply Rmult_le_compat; lra]).
  assert (D2 : 0 < d * d <= 121 / 10000) by (split; [apply Rmult_lt_0_compat; lra|replace (121 / 10000) with (11 / 100 * (11 / 100)) by field; apply Rmult_le_compat; lra]).
  replace (/ d * / d) with (/ (d * d)) by (field; lra). set (D := d * d) in *. set (S := su * su) in *. assert (SD : S <= 36 / 100 * D) by (unfold D in *; lra).
  clearbody D S. destruct (Nat.odd n).
  - rewrite !Rplus_0_l. apply (Rmult_lt_reg_r (S * D)); [apply Rmult_lt_0_compat; lra|].
    replace (/ D / S * (S * D)) with 1 by (field; lra). assert (S * D <= 36 / 100 * D * D) by (apply Rmult_le_compat_r; lra). assert (D * D <= 121 / 10000 * (121 / 10000)) by (apply Rmult_le_compat; lra). lra.
  - apply (Rmult_lt_reg_r ((1 + S) * D)); [apply Rmult_lt_0_compat; lra|].
    replace ((1 + / D) / (1 + S) * ((1 + S) * D)) with (D + 1) by (field; lra). assert (S * D <= 36 / 100 * D * D) by (apply Rmult_le_compat_r; lra). assert (D * D <= 121 / 10000 * D) by (apply Rmult_le_compat_r; lra). lra.
Qed.

Lemma cheby_boost_dc checks cap n fs fc gain ripple : (1 <= n <= cap)%nat -> valid_freq fc fs -> 0 < gain <= 1 -> gain <= ripple ->
  let G := pow10 (- gain / 20) in (Nat.odd n = true -> tan (PI * (fc / fs)) * sinh (boost_v n G) <> 1) ->
  exists c h, cheby_lowshelf checks cap n fs fc gain ripple = Ok c /\ cas_response c at_dc h /\ (if Nat.odd n then 10000 else 81) < Cnorm2 h.
Proof.
  intros Hn HV Hg Hr G HO. destruct (cheby_boost_ok checks cap n fs fc gain ripple Hn HV (proj1 Hg) Hr HO) as [c [E [_ F]]].
  destruct (F 0 ltac:(lra) ltac:(destruct HV; lra)) as [h [Hh Hm]]. exists c, h. split; [exact E|]. split.
  { replace (at_freq 0 fs) with at_dc in Hh; [exact Hh|]. unfold at_freq, at_dc, Cexp. replace (2 * PI * 0 / fs) with 0 by (unfold Rdiv; ring). rewrite cos_0, sin_0. reflexivity. }
  cbv zeta in Hm. replace (PI * (0 / fs)) with 0 in Hm by (unfold Rdiv; ring). rewrite tan_0 in Hm. replace (0 / tan (PI * (fc / fs))) with 0 in Hm by (unfold Rdiv; ring).
  rewrite Hm. apply boost_at_0, Hg.
Qed.
Lemma cheby_boost_nyquist checks cap n fs fc gain ripple : (1 <= n <= cap)%nat -> valid_freq fc fs -> 0 < gain <= 1 -> gain <= ripple ->
  let G := pow10 (- gain / 20) in (Nat.odd n = true -> sinh (boost_v n G) <> tan (PI * (fc / fs))) ->
  exists c h, cheby_highshelf checks cap n fs fc gain ripple = Ok c /\ cas_response c at_nyquist h /\ (if Nat.odd n then 10000 else 81) < Cnorm2 h.
Proof.
  intros Hn HV Hg Hr G HO. destruct (cheby_boost_high checks cap n fs fc gain ripple Hn HV (proj1 Hg) Hr HO) as [c [E [_ F]]]. assert (FS : 0 < fs) by (destruct HV; lra).
  destruct (F (fs / 2) ltac:(lra) ltac:(lra)) as [h [Hh Hm]]. exists c, h. split; [exact E|]. split.
  { replace (at_freq (fs / 2) fs) with at_nyquist in Hh; [exact Hh|]. unfold at_freq, at_nyquist, Cexp. replace (2 * PI * (fs / 2) / fs) with PI by (field; lra). rewrite cos_PI, sin_PI. reflexivity. }
  cbv zeta in Hm. replace (PI * (fs / 2 / fs)) with (PI / 2) in Hm by (field; lra). rewrite cos_PI2 in Hm. replace (tan (PI * (fc / fs)) * (0 / sin (PI / 2))) with 0 in Hm by (unfold Rdiv; ring).
  rewrite Hm. apply boost_at_0, Hg.
Qed.

(** ** The clamped cut *)
Lemma clamp_cut_sinh G : 1 < G -> let e := G - 1 in let b := (G + sqrt (1 + e * e)) / e in sinh (ln (clamp_b G)) = (b - / b) / 2.
Proof.
  intros HG e b. assert (He : 0 < e) by (unfold e; lra). destruct (clamp_sinh G HG) as [P _].
  assert (B1 : clamp_b G = b).
  { unfold clamp_b, b. fold e. replace (1 + 1 / (e * e)) with ((1 + e * e) / (e * e)) by (field; lra). rewrite sqrt_div_alt by nra. rewrite sqrt_square by lra. field. lra. }
  unfold sinh. rewrite exp_Ropp, exp_ln by lra. rewrite B1. reflexivity.
Qed.
Lemma cheby_cut_analog checks cap n gain ripple : (1 <= n <= cap)%nat -> gain < 0 -> - gain <= ripple ->
  let G := pow10 (- gain / 20) in let u := ln (clamp_b G) / INR n in let v := shelf_v n (G - 1) in
  0 < u /\ 0 < v /\ INR n * u = ln (clamp_b G) /\ sinh (INR n * v) = / (G - 1) /\
  cheby_shelf_analog checks (lay_new cap) n gain ripple = Ok (analog cap (cs_pairs n u v) (cs_odd n u v) PI 1).
Proof.
  intros Hn Hg Hr G u v. assert (HG : 1 < G) by (apply pow10_gt1; lra). destruct (clamp_sinh G HG) as [B1 _].
  assert (HI : INR n <> 0) by (apply INR_neq0; lia).
  split; [apply div_pos; [rewrite <- ln_1; apply ln_increasing; lra|apply lt_0_INR; lia]|].
  split; [apply shelf_uv_pos; [lia|apply div_pos; lra]|]. split; [unfold u; field; auto|].
  split; [unfold v, shelf_v; rewrite shelf_sinh by lia; unfold Rdiv; ring|].
  assert (CR : - gain - clamp_ripple (- gain) ripple = 0).
  { unfold clamp_ripple. rewrite Rabs_right by lra. destruct (Rle_dec (- gain) ripple); [|lra]. destruct (Rlt_dec (- gain) 0); lra. }
  assert (GB : pow10 ((- gain - clamp_ripple (- gain) ripple) / 20) = 1).
  { rewrite CR. replace (0 / 20) with 0 by field. apply Rpower_O. lra. }
  apply cheby_shelf_core with (b := clamp_b G); auto; try lra; try lia.
  - rewrite GB. destruct (Req_EM_T 1 1); [reflexivity|congruence].
  - rewrite GB. unfold clamp_b. fold G. ring.
Qed.
Lemma cheby_cut_ok checks cap n fs fc gain ripple : (1 <= n <= cap)%nat -> valid_freq fc fs -> gain < 0 -> - gain <= ripple ->
  let G := pow10 (- gain / 20) in let law t := (t * t + / (G - 1) * / (G - 1)) / (t * t + sinh (ln (clamp_b G)) * sinh (ln (clamp_b G))) in
  (exists c, cheby_lowshelf checks cap n fs fc gain ripple = Ok c /\ built cap n c /\
    forall f, 0 <= f -> 2 * f < fs -> exists h, cas_response c (at_freq f fs) h /\ Cnorm2 h = law (cheb n (tan (PI * (f / fs)) / tan (PI * (fc / fs))))) /\
  (exists c, cheby_highshelf checks cap n fs fc gain ripple = Ok c /\ built cap n c /\
    forall f, 0 < f -> 2 * f <= fs -> exists h, cas_response c (at_freq f fs) h /\ Cnorm2 h = law (cheb n (tan (PI * (fc / fs)) * (cos (PI * (f / fs)) / sin (PI * (f / fs)))))).
Proof.
  intros Hn HV Hg Hr G law. destruct (cheby_cut_analog checks cap n gain ripple Hn Hg Hr) as [UP [VP [UE [VE EA]]]]. fold G in UP, VP, UE, VE, EA.
  set (u := ln (clamp_b G) / INR n) in *. set (v := shelf_v n (G - 1)) in *. split.
  - destruct (shelf_low checks cap n _ _ 1 fc fs (ok_cs n _ _ UP VP) (cs_fin n _ _ VP) (cs_odd_real n _ _ VP) (mk_count _ _ _ _ n) Hn HV) as [c [E [B [F N]]]].
    exists c. split; [|split; [exact B|]].
    + unfold cheby_lowshelf. rewrite rdiv_ok by (destruct HV; lra). cbn [bind]. rewrite EA. exact E.
    + intros f F1 F2. destruct (F f F1 F2) as [h [Hh Hm]]. exists h. split; auto. rewrite Hm, cs_product by (auto; lia). rewrite UE, VE. unfold law. ring.
  - destruct (shelf_high checks cap n _ _ 1 fc fs (ok_cs n _ _ UP VP) (cs_fin n _ _ VP) (cs_odd_real n _ _ VP) (mk_count _ _ _ _ n) Hn HV) as [c [E [B [F N]]]].
    exists c. split; [|split; [exact B|]].
    + unfold cheby_highshelf. rewrite rdiv_ok by (destruct HV; lra). cbn [bind]. rewrite EA. exact E.
    + intros f F1 F2. destruct (F f F1 F2) as [h [Hh Hm]]. exists h. split; auto. rewrite Hm, cs_product by (auto; lia). rewrite cheb_opp_sq, UE, VE. unfold law. ring.
Qed.
