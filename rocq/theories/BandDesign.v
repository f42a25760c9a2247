(** Band-pass, band-stop and band-shelf cascades over any prototype. *)
From Coq Require Import Psatz Lia List.
From Verif Require Import RealBase RealBaseProofs BaseProofs Cplx CplxProofs PolyProofs BiquadModel BiquadSpec BiquadProofs.
From Verif Require Import StabilityProofs CascadeProofs DesignModel DesignSpec DesignProofs DesignProofs2 LayoutModel LayoutProofs.
From Verif Require Import BilinearProofs ButterProofs ButterShelfProofs ChebyDesign2 BandModel BandSpec BandProofs BandMaps.
Import ListNotations.
Local Open Scope R_scope.


Lemma tiny_pos : 0 < / 10 ^ 8. Proof. apply Rinv_0_lt_compat, pow_lt. lra. Qed.

Lemma edges fs f0 bw : valid_band fs f0 bw -> 0 < low_edge fs f0 bw /\ low_edge fs f0 bw < high_edge fs f0 bw /\ 2 * high_edge fs f0 bw < fs.
Proof.
  intros [F L]. pose proof tiny_pos as T. pose proof PI_RGT_0.
  assert (P : 0 < fs * (/ 10 ^ 8) / (2 * PI)) by (apply Rmult_lt_0_compat; [apply Rmult_lt_0_compat; auto|apply Rinv_0_lt_compat; lra]).
  pose proof (Rmax_r (f0 - bw / 2) (fs * (/ 10 ^ 8) / (2 * PI))). pose proof (Rmin_r (f0 + bw / 2) (fs / 2 - fs * (/ 10 ^ 8) / (2 * PI))).
  unfold low_edge, high_edge in *. lra.
Qed.
Lemma edge_angles fs f0 bw : valid_band fs f0 bw -> let t1 := PI * (low_edge fs f0 bw / fs) in let t2 := PI * (high_edge fs f0 bw / fs) in
  0 < t1 /\ t1 < t2 /\ t2 < PI / 2.
Proof.
  intros V t1 t2. destruct (edges _ _ _ V) as [A [B D]]. destruct V as [F _].
  pose proof (norm_range (low_edge fs f0 bw) fs A ltac:(lra)). pose proof (norm_range (high_edge fs f0 bw) fs ltac:(lra) D). split; [apply H|split; [|apply H0]].
  unfold t1, t2. pose proof PI_RGT_0. apply Rmult_lt_compat_l; auto. unfold Rdiv. apply Rmult_lt_compat_r; auto. apply Rinv_0_lt_compat; auto.
Qed.

Lemma edge_low fs f0 bw : 0 < fs -> let wc2 := 2 * PI * (f0 / fs) - 2 * PI * (bw / fs) / 2 in
  (if Rlt_dec wc2 tiny then tiny else wc2) = 2 * (PI * (low_edge fs f0 bw / fs)).
Proof.
  intros F wc2. pose proof PI_RGT_0 as PP. unfold low_edge, tiny. set (e := / 10 ^ 8).
  assert (W : wc2 = 2 * PI / fs * (f0 - bw / 2)) by (unfold wc2; field; lra).
  assert (E : e = 2 * PI / fs * (fs * e / (2 * PI))) by (field; lra).
  assert (K : 0 < 2 * PI / fs) by (apply Rmult_lt_0_compat; [lra|apply Rinv_0_lt_compat; lra]).
  destruct (Rlt_dec wc2 e) as [G|G].
  - rewrite Rmax_right; [field; lra|]. apply Rlt_le, (Rmult_lt_reg_l (2 * PI / fs)); auto. rewrite <- W, <- E. auto.
  - rewrite Rmax_left; [rewrite W; field; lra|]. apply (Rmult_le_reg_l (2 * PI / fs)); auto. rewrite <- W, <- E. lra.
Qed.
Lemma edge_high fs f0 bw : 0 < fs -> let wc := 2 * PI * (f0 / fs) - 2 * PI * (bw / fs) / 2 + 2 * PI * (bw / fs) in
  (if Rlt_dec (PI - tiny) wc then PI - tiny else wc) = 2 * (PI * (high_edge fs f0 bw / fs)).
Proof.
  intros F wc. pose proof PI_RGT_0 as PP. unfold high_edge, tiny. set (e := / 10 ^ 8).
  assert (W : wc = 2 * PI / fs * (f0 + bw / 2)) by (unfold wc; field; lra).
  assert (E : PI - e = 2 * PI / fs * (fs / 2 - fs * e / (2 * PI))) by (field; lra).
  assert (K : 0 < 2 * PI / fs) by (apply Rmult_lt_0_compat; [lra|apply Rinv_0_lt_compat; lra]).
  destruct (Rlt_dec (PI - e) wc) as [G|G].
  - rewrite Rmin_right; [rewrite E at 1; field; lra|]. apply Rlt_le, (Rmult_lt_reg_l (2 * PI / fs)); auto. rewrite <- W, <- E. auto.
  - rewrite Rmin_left; [rewrite W; field; lra|]. apply (Rmult_le_reg_l (2 * PI / fs)); auto. rewrite <- W, <- E. lra.
Qed.

Definition ba (t1 t2 : R) : R := cos (t2 + t1) / cos (t2 - t1).
Definition bb (t1 t2 : R) : R := 1 / tan (t2 - t1).

Lemma init_ok fs f0 bw : valid_band fs f0 bw ->
  let t1 := PI * (low_edge fs f0 bw / fs) in let t2 := PI * (high_edge fs f0 bw / fs) in
  band_init (f0 / fs) (bw / fs) = Ok (mkBand (2 * t2) (2 * t1) (ba t1 t2) (bb t1 t2)).
Proof.
  intros V t1 t2. destruct (edge_angles _ _ _ V) as [A [B D]]. fold t1 t2 in A, B, D. destruct V as [F _].
  unfold band_init. cbv zeta. rewrite edge_low, edge_high by auto. fold t1 t2.
  replace ((2 * t2 + 2 * t1) * (1 / 2)) with (t2 + t1) by field. replace ((2 * t2 - 2 * t1) * (1 / 2)) with (t2 - t1) by field.
  destruct (tan_pos_range (t2 - t1) ltac:(lra)) as [T C].
  rewrite rdiv_ok by lra. cbn [bind]. rewrite rtan_ok by lra. cbn [bind]. rewrite rdiv_ok by lra. reflexivity.
Qed.

Lemma band_consts t1 t2 : 0 < t1 -> t1 < t2 -> t2 < PI / 2 ->
  -1 < ba t1 t2 < 1 /\ 0 < bb t1 t2 /\ 0 < tan t1 /\ tan t1 < tan t2 /\
  bb t1 t2 * ((1 + ba t1 t2) / 2) = 1 / (tan t2 - tan t1) /\
  bb t1 t2 * ((1 - ba t1 t2) / 2) = tan t1 * tan t2 / (tan t2 - tan t1) /\
  bb t1 t2 = (1 + tan t1 * tan t2) / (tan t2 - tan t1).
Proof.
  intros A B D. destruct (tan_pos_range t1 ltac:(lra)) as [T1 C1']. destruct (tan_pos_range t2 ltac:(lra)) as [T2 C2'].
  destruct (tan_pos_range (t2 - t1) ltac:(lra)) as [TD CD].
  assert (S1 : 0 < sin t1) by (apply sin_gt_0; lra). assert (S2 : 0 < sin t2) by (apply sin_gt_0; lra).
  assert (SD : 0 < sin (t2 - t1)) by (apply sin_gt_0; lra).
  assert (TI : tan t1 < tan t2) by (apply tan_increasing; lra).
  unfold ba, bb, tan in *. rewrite cos_plus, cos_minus, sin_minus in *.
  set (c1 := cos t1) in *. set (s1 := sin t1) in *. set (c2 := cos t2) in *. set (s2 := sin t2) in *. clearbody c1 s1 c2 s2.
  assert (0 < c1 * c2) by (apply Rmult_lt_0_compat; auto). assert (0 < s1 * s2) by (apply Rmult_lt_0_compat; auto).
  assert (NE : s2 * c1 - c2 * s1 <> 0) by lra. assert (NE2 : c2 * c1 + s2 * s1 <> 0) by lra.
  split; [|split; [|split; [auto|split; [auto|split; [|split]]]]].
  - split; apply (Rmult_lt_reg_r (c2 * c1 + s2 * s1)); auto; unfold Rdiv; rewrite ?Rmult_assoc, ?Rinv_l by lra; lra.
  - apply Rmult_lt_0_compat; [lra|]. apply Rinv_0_lt_compat; auto.
  - field. repeat split; auto; lra.
  - field. repeat split; auto; lra.
  - field. repeat split; auto; lra.
Qed.

(** ** The unit circle *)
Section Circle.
Variables (a b : R) (z : C) (tau : R).
Hypothesis (E : (z - C1 = RtoC tau * Ci * (z + C1))%C) (NZ : (z + C1)%C <> C0).
Lemma circ_M : qM z = (RtoC tau * Ci * ((z + C1) * (z + C1)))%C.
Proof. unfold qM. transitivity ((z - C1) * (z + C1))%C; [ring|]. rewrite E. ring. Qed.
Lemma circ_Q : qQ a z = (RtoC ((1 - a) / 2 - (1 + a) / 2 * (tau * tau)) * ((z + C1) * (z + C1)))%C.
Proof.
  transitivity (RtoC ((1 - a) / 2) * ((z + C1) * (z + C1)) + RtoC ((1 + a) / 2) * ((z - C1) * (z - C1)))%C.
  { unfold qQ. apply C_eq; simpl; field. }
  rewrite E. set (y := (z + C1)%C). apply C_eq; simpl; ring.
Qed.
Lemma circ_M_nz : tau <> 0 -> qM z <> C0.
Proof.
  intros T. rewrite circ_M. apply Cmul_neq0; [|apply Cmul_neq0; auto]. intros X. apply (f_equal Im) in X. simpl in X. lra.
Qed.
Lemma circ_bp : tau <> 0 -> bpN a b z = (RtoC ((b * ((1 + a) / 2) * (tau * tau) - b * ((1 - a) / 2)) / tau) * Ci * qM z)%C.
Proof.
  intros T. unfold bpN. rewrite circ_M, circ_Q. set (y := (z + C1)%C). apply C_eq; simpl; field; auto.
Qed.
Lemma circ_bs : b <> 0 -> tau <> 0 ->
  qQ a z = (- Ci * RtoC (- ((b * ((1 + a) / 2) * (tau * tau) - b * ((1 - a) / 2)) / tau / (b * b))) * bsN b z)%C.
Proof.
  intros Hb T. unfold bsN. rewrite circ_M, circ_Q. set (y := (z + C1)%C). apply C_eq; simpl; field; auto.
Qed.
End Circle.

Lemma freq_circle f fs : 0 < f -> 2 * f < fs -> (at_freq f fs - C1 = RtoC (warp f fs) * Ci * (at_freq f fs + C1))%C /\ (at_freq f fs + C1)%C <> C0 /\
  0 < warp f fs.
Proof.
  intros A B. pose proof (norm_range f fs A B) as R. destruct (tan_pos_range _ R) as [T C]. rewrite at_freq_half by lra.
  destruct (half_angle (PI * (f / fs)) ltac:(lra)). auto.
Qed.

Lemma band_x_of t1 t2 fs lo hi f : t1 = PI * (lo / fs) -> t2 = PI * (hi / fs) -> 0 < t1 -> t1 < t2 -> t2 < PI / 2 -> warp f fs <> 0 ->
  (bb t1 t2 * ((1 + ba t1 t2) / 2) * (warp f fs * warp f fs) - bb t1 t2 * ((1 - ba t1 t2) / 2)) / warp f fs = band_x fs lo hi f.
Proof.
  intros -> -> A B D W. destruct (band_consts _ _ A B D) as [_ [_ [_ [L [E1 [E2 _]]]]]]. rewrite E1, E2. unfold band_x, warp in *. field. split; auto. lra.
Qed.

(** ** Inverted frequency: reference where N vanishes *)
Lemma bfac_inv tr b N M z z0 y cz : band_map tr b N M -> M z = (- Ci * RtoC y * N z)%C -> N z <> C0 -> N z0 = C0 -> M z0 <> C0 ->
  Re (fst cz) < 0 -> lhp (snd cz) -> (forall d, snd cz = Fin d -> d <> C0) ->
  bfac b N M z cz = bfac b N M z0 cz * ifac y cz.
Proof.
  intros BM EM HN E0 HM0 A B D. destruct cz as [c zt]. unfold bfac, gnum, ifac. cbn [fst snd] in *.
  assert (P1 : 0 < Cnorm2 (N z)) by (apply C_neq0; auto). assert (P2 : 0 < Cnorm2 (M z0)) by (apply C_neq0; auto). pose proof (cneg_nz c A) as P3.
  pose proof (lead_nz tr b N M BM (Fin c) ltac:(simpl; lra)) as X. simpl in X. apply C_neq0 in X.
  pose proof (iy_pos y c A) as P4.
  assert (F : forall d, Cnorm2 (N z - d * M z)%C = Cnorm2 (N z) * Cnorm2 (Ci - RtoC y * d)%C).
  { intros d. rewrite EM. replace (N z - d * (- Ci * RtoC y * N z))%C with (N z * (C1 + d * Ci * RtoC y))%C by ring. rewrite Cnorm2_mul. f_equal. unfold Cnorm2; simpl; ring. }
  assert (G : forall d, Cnorm2 (N z0 - d * M z0)%C = Cnorm2 d * Cnorm2 (M z0)).
  { intros d. rewrite E0. replace (C0 - d * M z0)%C with (- (d * M z0))%C by ring. rewrite <- Cnorm2_mul. unfold Cnorm2; simpl; ring. }
  destruct zt as [d|]; cbn [poly lead].
  - pose proof (lead_nz tr b N M BM (Fin d) B) as Y. simpl in Y. apply C_neq0 in Y. pose proof (C_neq0 _ (D d eq_refl)). rewrite !F, !G. field. lra.
  - rewrite F, G. replace (Cnorm2 (M z)) with (y * y * Cnorm2 (N z)); [|rewrite EM, !Cnorm2_mul, Cnorm2_RtoC; unfold Cnorm2; simpl; ring].
    replace (Cnorm2 C1) with 1 by (unfold Cnorm2; simpl; ring). field. lra.
Qed.

(** ** Prototypes *)
Lemma ok_parts prs od : ok_design prs od ->
  (forall cz, In cz prs -> Re (fst cz) < 0 /\ lhp (snd cz) /\ (snd cz = Inf \/ Im (fst cz) <> 0)) /\
  (forall cz, od = Some cz -> fst cz < 0 /\ lhp (snd cz) /\ realc (snd cz)).
Proof.
  intros OD. specialize (OD 1 1 (or_introl eq_refl) Rlt_0_1). split.
  - intros cz HI. apply (do_p _ _ _ _ OD cz HI).
  - intros cz HI. destruct (do_o _ _ _ _ OD cz HI) as [A [B D]]. split; auto. split; auto. destruct (snd cz); simpl; auto.
Qed.
Lemma band_ok_id tr prs od : ok_design prs od -> band_ok tr (fun z => z) prs od.
Proof.
  intros OD. destruct (ok_parts prs od OD) as [A B]. constructor.
  - intros cz HI. destruct (A cz HI) as [A1 [A2 A3]]. auto.
  - intros cz HI. destruct (B cz HI) as [A1 [A2 A3]]. auto.
Qed.

Lemma rprod_nz l : rprod l <> 0 -> forall a, In a l -> a <> 0.
Proof.
  induction l as [|x l IH]; intros HL a Ha; [destruct Ha|]. simpl in HL. destruct Ha as [<-|Ha].
  - intros E; apply HL; rewrite E; ring.
  - apply IH; auto. intros E; apply HL; rewrite E; ring.
Qed.

Lemma afac_ifac x cz : x <> 0 -> Re (fst cz) < 0 -> match snd cz with Inf => True | Fin z => Re z <= 0 /\ z <> C0 end ->
  afac x cz = afac 0 cz * ifac (1 / x) cz.
Proof.
  intros Hx A B. destruct cz as [c zt]. unfold afac, ifac. cbn [fst snd] in *. pose proof (cneg_nz c A) as P.
  assert (P4 : 0 < Cnorm2 (RtoC x * Ci - c)%C) by (apply C_neq0; intros E; apply (f_equal Re) in E; simpl in E; change (fst c) with (Re c) in E; lra).
  assert (F : forall d, Cnorm2 (Ci - RtoC (1 / x) * d)%C = Cnorm2 (RtoC x * Ci - d)%C / (x * x)).
  { intros d. unfold Cnorm2; simpl. field. auto. }
  assert (G : forall d, Cnorm2 (RtoC 0 * Ci - d)%C = Cnorm2 d) by (intros d; unfold Cnorm2; simpl; ring).
  destruct zt as [d|]; rewrite !F, !G; [destruct B as [_ B]; apply C_neq0 in B|]; field; repeat split; auto; lra.
Qed.
Lemma afac0_ifac0 c d : Re c < 0 -> d <> C0 -> afac 0 (c, Fin d) * ifac 0 (c, Fin d) = 1.
Proof.
  intros A B. pose proof (cneg_nz c A) as P. apply C_neq0 in B. unfold afac, ifac. cbn [fst snd].
  assert (F : forall d, Cnorm2 (Ci - RtoC 0 * d)%C = 1) by (intros e; unfold Cnorm2; simpl; ring).
  assert (G : forall d, Cnorm2 (RtoC 0 * Ci - d)%C = Cnorm2 d) by (intros e; unfold Cnorm2; simpl; ring).
  rewrite !F, !G. field. lra.
Qed.

Lemma bandpass_general checks cap n prs od g fs f0 bw : ok_design prs od ->
  (2 * length prs + ocount od = n)%nat -> (1 <= n <= cap)%nat -> checks = false \/ od = None -> valid_band fs f0 bw ->
  let lo := low_edge fs f0 bw in let hi := high_edge fs f0 bw in
  rprod (map (afac (ref_x fs lo hi)) (flat prs od)) <> 0 ->
  exists c, bandpass_of checks cap (Ok (analog cap prs od 0 g)) fs f0 bw = Ok c /\ sections_ok c n cap /\
    (forall f, 0 < f -> 2 * f < fs -> exists h, cas_response c (at_freq f fs) h /\
       Cnorm2 h = g * g * (rprod (map (afac (band_x fs lo hi f)) (flat prs od)) / rprod (map (afac (ref_x fs lo hi)) (flat prs od)))) /\
    ((exists cz, In cz (flat prs od) /\ snd cz = Inf) -> cas_response c at_dc C0 /\ cas_response c at_nyquist C0) /\
    (mixed (flat prs od) -> forall z, z = at_dc \/ z = at_nyquist -> exists h, cas_response c z h /\
       Cnorm2 h = g * g * (rprod (map (afac 0) (flat prs od)) * rprod (map (ifac 0) (flat prs od)) / rprod (map (afac (ref_x fs lo hi)) (flat prs od)))).
Proof.
  intros OD HN Hn HK V lo hi HR. destruct (edge_angles _ _ _ V) as [A [B D]]. fold lo hi in A, B, D. pose proof (proj1 V) as Hfs.
  unfold bandpass_of. rewrite !rdiv_ok by lra. cbn [bind]. rewrite init_ok by auto. cbn [bind]. fold lo hi.
  set (t1 := PI * (lo / fs)) in *. set (t2 := PI * (hi / fs)) in *.
  destruct (band_consts t1 t2 A B D) as [Ha [Hb [T1 [T12 [E1 [E2 _]]]]]].
  pose proof (bp_map (ba t1 t2) (bb t1 t2) (2 * t2) (2 * t1) Ha Hb) as BM.
  pose proof (band_ok_id (bp_transform (mkBand (2 * t2) (2 * t1) (ba t1 t2) (bb t1 t2))) prs od OD) as BO.
  set (q := mkBand (2 * t2) (2 * t1) (ba t1 t2) (bb t1 t2)) in *.
  assert (SP : 0 < tan t2 + tan t1) by lra. pose proof (sqrt_lt_R0 _ SP) as SQ. pose proof (sqrt_sqrt (tan t2 + tan t1) ltac:(lra)) as SS.
  set (r := sqrt (tan t2 + tan t1)) in *. set (tr := atan r).
  assert (ER : bp_reference q (analog cap prs od 0 g) = Ok (2 * tr)).
  { unfold bp_reference. change (lay_w (analog cap prs od 0 g)) with 0. unfold q. cbn [bd_wc bd_wc2].
    replace ((2 * t2 + 0) * (1 / 2)) with t2 by field. replace ((2 * t1 + 0) * (1 / 2)) with t1 by field.
    destruct (tan_pos_range t1 ltac:(lra)) as [_ C1']. destruct (tan_pos_range t2 ltac:(lra)) as [_ C2'].
    rewrite !rtan_ok by lra. cbn [bind]. rewrite rsqrt_ok by lra. reflexivity. }
  assert (CR : (Cexp (2 * tr) - C1 = RtoC r * Ci * (Cexp (2 * tr) + C1))%C /\ (Cexp (2 * tr) + C1)%C <> C0).
  { pose proof (atan_bound r). replace r with (tan tr) at 1 by apply atan_right_inv || (unfold tr; apply tan_atan). apply half_angle.
    assert (0 < cos tr) by (apply cos_gt_0; unfold tr; lra). lra. }
  destruct CR as [CR1 CR2].
  assert (XR : bpN (ba t1 t2) (bb t1 t2) (Cexp (2 * tr)) = (RtoC (ref_x fs lo hi) * Ci * qM (Cexp (2 * tr)))%C).
  { rewrite (circ_bp (ba t1 t2) (bb t1 t2) _ r CR1) by lra. do 3 f_equal. rewrite E1, E2. unfold ref_x. unfold warp. fold t1 t2.
    replace (tan t1 + tan t2) with (tan t2 + tan t1) by ring. fold r. rewrite SS. field. lra. }
  assert (MR : qM (Cexp (2 * tr)) <> C0) by (apply (circ_M_nz _ r); auto; lra).
  assert (PN : forall cz, In cz (flat prs od) -> poly (bpN (ba t1 t2) (bb t1 t2)) qM (snd cz) (Cexp (2 * tr)) <> C0).
  { intros cz HI. destruct cz as [c zt]. cbn [snd]. destruct zt as [d|]; cbn [poly]; auto.
    rewrite XR. replace (RtoC (ref_x fs lo hi) * Ci * qM (Cexp (2 * tr)) - d * qM (Cexp (2 * tr)))%C with ((RtoC (ref_x fs lo hi) * Ci - d) * qM (Cexp (2 * tr)))%C by ring.
    apply Cmul_neq0; auto. intros Z. apply (rprod_nz _ HR (afac (ref_x fs lo hi) (c, Fin d))); [apply in_map; auto|].
    unfold afac. cbn [snd fst]. rewrite Z. replace (Cnorm2 C0) with 0 by (unfold Cnorm2; simpl; ring). unfold Rdiv; ring. }
  destruct (band_cascade _ _ _ _ _ BM prs od BO checks cap n 0 g (2 * tr) g HN Hn HK PN) as [c [Ec [SO [PP HZ]]]].
  exists c. split.
  { rewrite <- Ec. destruct (band_layout checks (bp_transform q) (fun z => z) (analog cap prs od 0 g) (lay_new (2 * cap))) as [d| |] eqn:EL; auto.
    cbn [bind]. rewrite ER. cbn [bind]. rewrite band_layout_ok with (b := bb t1 t2) (N := bpN (ba t1 t2) (bb t1 t2)) (M := qM) in EL; auto; [|lia].
    injection EL as <-. reflexivity. }
  split; auto. pose proof (prod_k_pos _ _ _ _ _ BM prs od BO) as KP. split; [|split].
  - intros f F1 F2. destruct (HZ (at_freq f fs) (Cmod_at_freq f fs)) as [h [R1 R2]]. exists h. split; auto. rewrite R2. f_equal.
    destruct (freq_circle f fs F1 F2) as [Q1 [Q2 Q3]].
    rewrite (prod_at _ _ _ _ _ BM prs od BO _ _ XR MR) in *.
    rewrite (prod_at _ _ _ _ _ BM prs od BO (at_freq f fs) (band_x fs lo hi f)).
    + set (K := rprod (map (kfac (bb t1 t2)) (flat prs od))) in *. field. split; auto. lra.
    + rewrite (circ_bp (ba t1 t2) (bb t1 t2) _ (warp f fs) Q1) by lra. do 3 f_equal. apply band_x_of; auto. lra.
    + apply (circ_M_nz _ (warp f fs)); auto. lra.
  - intros EX.
    assert (Z0 : forall z, Cmod z = 1 -> qM z = C0 -> cas_response c z C0).
    { intros z Hz Mz. destruct (HZ z Hz) as [h [R1 R2]]. rewrite (prod_zero _ _ _ prs od z Mz EX) in R2.
      replace C0 with h; auto. apply Cnorm2_0. rewrite R2. unfold Rdiv. ring. }
    split; apply Z0.
    + apply Cmod_1.
    + unfold qM, at_dc. ring.
    + unfold at_nyquist. rewrite Cmod_RtoC. unfold Rabs. destruct (Rcase_abs _); lra.
    + unfold qM, at_nyquist. apply C_eq; simpl; ring.
  - intros MX z Hz.
    assert (Q : Cmod z = 1 /\ qM z = C0).
    { destruct Hz as [->| ->]; split; [apply Cmod_1|unfold qM, at_dc; ring|unfold at_nyquist; rewrite Cmod_RtoC; unfold Rabs; destruct (Rcase_abs _); lra|
        unfold qM, at_nyquist; apply C_eq; simpl; ring]. }
    destruct Q as [Q1 Q2]. destruct (HZ z Q1) as [h [R1 R2]]. exists h. split; auto. rewrite R2. f_equal.
    rewrite (prod_at _ _ _ _ _ BM prs od BO _ _ XR MR) in *.
    assert (X : rprod (map (bfac (bb t1 t2) (bpN (ba t1 t2) (bb t1 t2)) qM z) (flat prs od)) =
       rprod (map (kfac (bb t1 t2)) (flat prs od)) * (rprod (map (afac 0) (flat prs od)) * rprod (map (ifac 0) (flat prs od)))).
    { rewrite <- !rprod_map_mult. apply rprod_map_ext. intros cz HI. destruct (flat_props _ _ _ _ BO cz HI) as [P1 P2]. pose proof (MX cz HI) as P3.
      destruct cz as [cc zt]. cbn [fst snd] in *. destruct zt as [d|].
      - assert (NZ : bpN (ba t1 t2) (bb t1 t2) z <> C0) by (unfold bpN; apply Cmul_neq0; [apply RtoC_neq0; lra|apply both_zero; auto]).
        destruct P3 as [P3 P5]. rewrite (bfac_at_inf _ _ _ _ BM) by auto. rewrite (afac0_ifac0 cc d) by auto. ring.
      - rewrite bfac_zero by auto. unfold ifac. cbn [snd]. unfold Rdiv. ring. }
    rewrite X. set (K := rprod (map (kfac (bb t1 t2)) (flat prs od))) in *. field. split; auto. lra.
Qed.

Lemma bandpass_zero checks cap n prs od g fs f0 bw : ok_design prs od ->
  (2 * length prs + ocount od = n)%nat -> (1 <= n <= cap)%nat -> checks = false \/ od = None -> valid_band fs f0 bw ->
  let lo := low_edge fs f0 bw in let hi := high_edge fs f0 bw in
  rprod (map (afac (ref_x fs lo hi)) (flat prs od)) = 0 ->
  bandpass_of checks cap (Ok (analog cap prs od 0 g)) fs f0 bw = NonFinite.
Proof.
  intros OD HN Hn HK V lo hi HR. destruct (edge_angles _ _ _ V) as [A [B D]]. fold lo hi in A, B, D. pose proof (proj1 V) as Hfs.
  unfold bandpass_of. rewrite !rdiv_ok by lra. cbn [bind]. rewrite init_ok by auto. cbn [bind]. fold lo hi.
  set (t1 := PI * (lo / fs)) in *. set (t2 := PI * (hi / fs)) in *.
  destruct (band_consts t1 t2 A B D) as [Ha [Hb [T1 [T12 [E1 [E2 _]]]]]].
  pose proof (bp_map (ba t1 t2) (bb t1 t2) (2 * t2) (2 * t1) Ha Hb) as BM.
  pose proof (band_ok_id (bp_transform (mkBand (2 * t2) (2 * t1) (ba t1 t2) (bb t1 t2))) prs od OD) as BO.
  set (q := mkBand (2 * t2) (2 * t1) (ba t1 t2) (bb t1 t2)) in *.
  assert (SP : 0 < tan t2 + tan t1) by lra. pose proof (sqrt_lt_R0 _ SP) as SQ. pose proof (sqrt_sqrt (tan t2 + tan t1) ltac:(lra)) as SS.
  set (r := sqrt (tan t2 + tan t1)) in *. set (tr := atan r).
  assert (ER : bp_reference q (analog cap prs od 0 g) = Ok (2 * tr)).
  { unfold bp_reference. change (lay_w (analog cap prs od 0 g)) with 0. unfold q. cbn [bd_wc bd_wc2].
    replace ((2 * t2 + 0) * (1 / 2)) with t2 by field. replace ((2 * t1 + 0) * (1 / 2)) with t1 by field.
    destruct (tan_pos_range t1 ltac:(lra)) as [_ C1']. destruct (tan_pos_range t2 ltac:(lra)) as [_ C2'].
    rewrite !rtan_ok by lra. cbn [bind]. rewrite rsqrt_ok by lra. reflexivity. }
  assert (CR : (Cexp (2 * tr) - C1 = RtoC r * Ci * (Cexp (2 * tr) + C1))%C /\ (Cexp (2 * tr) + C1)%C <> C0).
  { pose proof (atan_bound r). replace r with (tan tr) at 1 by apply atan_right_inv || (unfold tr; apply tan_atan). apply half_angle.
    assert (0 < cos tr) by (apply cos_gt_0; unfold tr; lra). lra. }
  destruct CR as [CR1 CR2].
  assert (XR : bpN (ba t1 t2) (bb t1 t2) (Cexp (2 * tr)) = (RtoC (ref_x fs lo hi) * Ci * qM (Cexp (2 * tr)))%C).
  { rewrite (circ_bp (ba t1 t2) (bb t1 t2) _ r CR1) by lra. do 3 f_equal. rewrite E1, E2. unfold ref_x. unfold warp. fold t1 t2.
    replace (tan t1 + tan t2) with (tan t2 + tan t1) by ring. fold r. rewrite SS. field. lra. }
  assert (MR : qM (Cexp (2 * tr)) <> C0) by (apply (circ_M_nz _ r); auto; lra).
  pose proof (band_cascade_zero _ _ _ _ _ BM prs od BO checks cap n 0 g (2 * tr) g HN Hn HK) as Ec.
  rewrite <- Ec.
  - destruct (band_layout checks (bp_transform q) (fun z => z) (analog cap prs od 0 g) (lay_new (2 * cap))) as [d| |] eqn:EL; auto.
    cbn [bind]. rewrite ER. cbn [bind]. rewrite band_layout_ok with (b := bb t1 t2) (N := bpN (ba t1 t2) (bb t1 t2)) (M := qM) in EL; auto; [|lia].
    injection EL as <-. reflexivity.
  - rewrite (prod_at _ _ _ _ _ BM prs od BO _ _ XR MR), HR. ring.
Qed.

Lemma bandshelf_general checks cap n prs od w0 g fs f0 bw : ok_design prs od -> all_fin (flat prs od) ->
  (2 * length prs + ocount od = n)%nat -> (1 <= n <= cap)%nat -> checks = false \/ od = None -> valid_band fs f0 bw ->
  let lo := low_edge fs f0 bw in let hi := high_edge fs f0 bw in
  exists c, bandshelf_of checks cap (Ok (analog cap prs od w0 g)) fs f0 bw = Ok c /\ sections_ok c n cap /\
    (forall f, 0 < f -> 2 * f < fs -> exists h, cas_response c (at_freq f fs) h /\
       Cnorm2 h = rprod (map (afac (band_x fs lo hi f)) (flat prs od))) /\
    (exists h, cas_response c at_dc h /\ Cnorm2 h = 1) /\ (exists h, cas_response c at_nyquist h /\ Cnorm2 h = 1).
Proof.
  intros OD AF HN Hn HK V lo hi. destruct (edge_angles _ _ _ V) as [A [B D]]. fold lo hi in A, B, D. pose proof (proj1 V) as Hfs.
  unfold bandshelf_of. rewrite !rdiv_ok by lra. cbn [bind]. rewrite init_ok by auto. cbn [bind]. fold lo hi.
  set (t1 := PI * (lo / fs)) in *. set (t2 := PI * (hi / fs)) in *.
  destruct (band_consts t1 t2 A B D) as [Ha [Hb [T1 [T12 [E1 [E2 _]]]]]].
  pose proof (bp_map (ba t1 t2) (bb t1 t2) (2 * t2) (2 * t1) Ha Hb) as BM.
  pose proof (band_ok_id (bp_transform (mkBand (2 * t2) (2 * t1) (ba t1 t2) (bb t1 t2))) prs od OD) as BO.
  set (q := mkBand (2 * t2) (2 * t1) (ba t1 t2) (bb t1 t2)) in *.
  set (wr := if Rlt_dec (f0 / fs) (1 / 4) then PI else 0).
  assert (MR : qM (Cexp wr) = C0).
  { unfold wr. destruct (Rlt_dec _ _); [rewrite Cexp_PI|rewrite Cexp_0']; unfold qM; apply C_eq; simpl; ring. }
  assert (NR : forall z, qM z = C0 -> bpN (ba t1 t2) (bb t1 t2) z <> C0).
  { intros z Mz. unfold bpN. apply Cmul_neq0; [apply RtoC_neq0; lra|apply both_zero; auto]. }
  assert (PN : forall cz, In cz (flat prs od) -> poly (bpN (ba t1 t2) (bb t1 t2)) qM (snd cz) (Cexp wr) <> C0).
  { intros cz HI. destruct (AF cz HI) as [d [E Hd]]. rewrite E. cbn [poly]. rewrite MR.
    replace (bpN (ba t1 t2) (bb t1 t2) (Cexp wr) - d * C0)%C with (bpN (ba t1 t2) (bb t1 t2) (Cexp wr)) by ring. auto. }
  destruct (band_cascade _ _ _ _ _ BM prs od BO checks cap n w0 g wr 1 HN Hn HK PN) as [c [Ec [SO [PP HZ]]]].
  exists c. split; [exact Ec|]. split; auto. pose proof (prod_k_pos _ _ _ _ _ BM prs od BO) as KP.
  pose proof (prod_at_inf _ _ _ _ _ BM prs od BO _ MR (NR _ MR) AF) as ER. rewrite ER in HZ.
  set (K := rprod (map (kfac (bb t1 t2)) (flat prs od))) in *.
  assert (Z0 : forall z, Cmod z = 1 -> qM z = C0 -> exists h, cas_response c z h /\ Cnorm2 h = 1).
  { intros z Hz Mz. destruct (HZ z Hz) as [h [R1 R2]]. exists h. split; auto. rewrite R2.
    rewrite (prod_at_inf _ _ _ _ _ BM prs od BO z Mz (NR _ Mz) AF). fold K. field. lra. }
  split; [|split; apply Z0].
  - intros f F1 F2. destruct (HZ (at_freq f fs) (Cmod_at_freq f fs)) as [h [R1 R2]]. exists h. split; auto. rewrite R2.
    destruct (freq_circle f fs F1 F2) as [Q1 [Q2 Q3]].
    rewrite (prod_at _ _ _ _ _ BM prs od BO (at_freq f fs) (band_x fs lo hi f)).
    + fold K. field. lra.
    + rewrite (circ_bp (ba t1 t2) (bb t1 t2) _ (warp f fs) Q1) by lra. do 3 f_equal. apply band_x_of; auto. lra.
    + apply (circ_M_nz _ (warp f fs)); auto. lra.
  - apply Cmod_1.
  - unfold qM, at_dc. ring.
  - unfold at_nyquist. rewrite Cmod_RtoC. unfold Rabs. destruct (Rcase_abs _); lra.
  - unfold qM, at_nyquist. apply C_eq; simpl; ring.
Qed.

Definition stop_zeros (prs : list (C * ecomplex)) : Prop := forall cz, In cz prs -> snd cz = Inf \/ exists y, snd cz = Fin (0, y).

Lemma bandstop_general checks cap n prs od g fs f0 bw : ok_design prs od -> odd_inf od -> mixed (flat prs od) -> stop_zeros prs ->
  (2 * length prs + ocount od = n)%nat -> (1 <= n <= cap)%nat -> checks = false \/ od = None -> valid_band fs f0 bw ->
  let lo := low_edge fs f0 bw in let hi := high_edge fs f0 bw in
  exists c, bandstop_of checks cap (Ok (analog cap prs od 0 g)) fs f0 bw = Ok c /\ sections_ok c n cap /\
    (forall f, 0 < f -> 2 * f < fs -> exists h, cas_response c (at_freq f fs) h /\
       Cnorm2 h = g * g * rprod (map (ifac (- (band_x fs lo hi f / (stop_b fs lo hi * stop_b fs lo hi)))) (flat prs od))) /\
    (exists h, cas_response c at_dc h /\ Cnorm2 h = g * g) /\ (exists h, cas_response c at_nyquist h /\ Cnorm2 h = g * g).
Proof.
  intros OD OI MX SZ HN Hn HK V lo hi. destruct (edge_angles _ _ _ V) as [A [B D]]. fold lo hi in A, B, D. pose proof (proj1 V) as Hfs.
  unfold bandstop_of. rewrite !rdiv_ok by lra. cbn [bind]. rewrite init_ok by auto. cbn [bind]. fold lo hi.
  set (t1 := PI * (lo / fs)) in *. set (t2 := PI * (hi / fs)) in *.
  destruct (band_consts t1 t2 A B D) as [Ha [Hb [T1 [T12 [E1 [E2 E3]]]]]].
  pose proof (bs_map (ba t1 t2) (bb t1 t2) (2 * t2) (2 * t1) Ha Hb) as BM.
  set (q := mkBand (2 * t2) (2 * t1) (ba t1 t2) (bb t1 t2)) in *.
  assert (BO : band_ok (bs_transform q) bs_adjust prs od).
  { destruct (ok_parts prs od OD) as [P1 P2]. constructor.
    - intros cz HI. destruct (P1 cz HI) as [A1 [A2 A3]]. split; auto. split; auto. split; auto. apply bs_adj; auto.
    - intros cz HI. destruct (P2 cz HI) as [A1 [A2 A3]]. auto. }
  set (wr := bs_reference (f0 / fs) (analog cap prs od 0 g)).
  assert (NR : bsN (bb t1 t2) (Cexp wr) = C0).
  { unfold wr, bs_reference. change (lay_w (analog cap prs od 0 g)) with 0. destruct (Rlt_dec _ _); [rewrite Cexp_PI|rewrite Cexp_0']; unfold bsN, qM; apply C_eq; simpl; ring. }
  assert (MR : forall z, bsN (bb t1 t2) z = C0 -> qQ (ba t1 t2) z <> C0).
  { intros z Nz. apply both_zero; auto. unfold bsN in Nz. apply Cmul_eq0 in Nz. destruct Nz as [Nz|Nz]; auto.
    apply (f_equal Re) in Nz. simpl in Nz. lra. }
  assert (FP : forall cz, In cz (flat prs od) -> Re (fst cz) < 0 /\ lhp (snd cz)) by apply (flat_props _ _ _ _ BO).
  assert (PN : forall cz, In cz (flat prs od) -> poly (bsN (bb t1 t2)) (qQ (ba t1 t2)) (snd cz) (Cexp wr) <> C0).
  { intros cz HI. pose proof (MX cz HI) as X. destruct (snd cz) as [d|]; cbn [poly]; [|auto].
    rewrite NR. replace (C0 - d * qQ (ba t1 t2) (Cexp wr))%C with ((- d) * qQ (ba t1 t2) (Cexp wr))%C by ring.
    apply Cmul_neq0; auto. intros Z. apply (proj2 X). transitivity (- - d)%C; [ring|rewrite Z; ring]. }
  destruct (band_cascade _ _ _ _ _ BM prs od BO checks cap n 0 g wr g HN Hn HK PN) as [c [Ec [SO [PP HZ]]]].
  exists c. split.
  { rewrite <- Ec. destruct (band_layout checks (bs_transform q) bs_adjust (analog cap prs od 0 g) (lay_new (2 * cap))) as [d| |] eqn:EL; auto.
    cbn [bind]. rewrite band_layout_ok with (b := bb t1 t2) (N := bsN (bb t1 t2)) (M := qQ (ba t1 t2)) in EL; auto; [|lia].
    injection EL as <-. reflexivity. }
  split; auto.
  assert (KEY : forall z y, qQ (ba t1 t2) z = (- Ci * RtoC y * bsN (bb t1 t2) z)%C -> bsN (bb t1 t2) z <> C0 ->
     rprod (map (bfac (bb t1 t2) (bsN (bb t1 t2)) (qQ (ba t1 t2)) z) (flat prs od)) =
     rprod (map (bfac (bb t1 t2) (bsN (bb t1 t2)) (qQ (ba t1 t2)) (Cexp wr)) (flat prs od)) * rprod (map (ifac y) (flat prs od))).
  { intros z y EM HNz. rewrite <- rprod_map_mult. apply rprod_map_ext. intros cz HI. destruct (FP cz HI). eapply bfac_inv; eauto.
    intros d Ed. pose proof (MX cz HI) as X. rewrite Ed in X. apply X. }
  assert (Z0 : forall z, Cmod z = 1 -> qM z = C0 -> exists h, cas_response c z h /\ Cnorm2 h = g * g).
  { intros z Hz Mz. destruct (HZ z Hz) as [h [R1 R2]]. exists h. split; auto. rewrite R2.
    replace (rprod (map (bfac (bb t1 t2) (bsN (bb t1 t2)) (qQ (ba t1 t2)) z) (flat prs od)))
      with (rprod (map (bfac (bb t1 t2) (bsN (bb t1 t2)) (qQ (ba t1 t2)) (Cexp wr)) (flat prs od))); [field; lra|].
    apply rprod_map_ext. intros cz HI. destruct (FP cz HI) as [Q1 Q2].
    assert (Nz : bsN (bb t1 t2) z = C0) by (unfold bsN; rewrite Mz; ring).
    assert (X : forall z, bsN (bb t1 t2) z = C0 -> bsN (bb t1 t2) z = (RtoC 0 * Ci * qQ (ba t1 t2) z)%C).
    { intros z' ->. change (RtoC 0) with C0. ring. }
    rewrite (bfac_at _ _ _ _ BM (Cexp wr) 0 cz), (bfac_at _ _ _ _ BM z 0 cz); auto. }
  split; [|split; apply Z0].
  - intros f F1 F2. destruct (HZ (at_freq f fs) (Cmod_at_freq f fs)) as [h [R1 R2]]. exists h. split; auto. rewrite R2.
    destruct (freq_circle f fs F1 F2) as [Q1 [Q2 Q3]].
    rewrite (KEY (at_freq f fs) (- (band_x fs lo hi f / (stop_b fs lo hi * stop_b fs lo hi)))).
    + field. lra.
    + assert (SB : stop_b fs lo hi = bb t1 t2) by (rewrite E3; reflexivity). rewrite SB.
      rewrite <- (band_x_of t1 t2 fs lo hi f) by (auto; lra). apply (circ_bs (ba t1 t2) (bb t1 t2) _ (warp f fs) Q1); lra.
    + unfold bsN. apply Cmul_neq0; [apply RtoC_neq0; lra|]. apply (circ_M_nz _ (warp f fs)); auto. lra.
  - apply Cmod_1.
  - unfold qM, at_dc. ring.
  - unfold at_nyquist. rewrite Cmod_RtoC. unfold Rabs. destruct (Rcase_abs _); lra.
  - unfold qM, at_nyquist. apply C_eq; simpl; ring.
Qed.
