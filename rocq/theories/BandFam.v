(** The three prototype families in the band transforms. *)
From Coq Require Import Psatz Lia List.
From Verif Require Import RealBase RealBaseProofs Cplx CplxProofs BiquadModel BiquadSpec StabilityProofs.
From Verif Require Import DesignModel DesignSpec DesignProofs DesignProofs2 LayoutModel LayoutProofs BilinearProofs ButterProofs ButterShelfProofs.
From Verif Require Import ChebySpec ChebyProofs ChebyModel ChebyDesign ChebyDesign2 ChebyShelf BandModel BandSpec BandProofs BandMaps BandDesign.
Import ListNotations.
Local Open Scope R_scope.

Lemma odd_none_bw checks n : checks = false \/ Nat.odd n = false -> checks = false \/ bw_odd n = None.
Proof. intros [H|H]; [left; auto|right; unfold bw_odd; rewrite H; reflexivity]. Qed.
Lemma odd_none_mk checks p z n : checks = false \/ Nat.odd n = false -> checks = false \/ mk_odd p z n = None.
Proof. intros [H|H]; [left; auto|right; unfold mk_odd; rewrite H; reflexivity]. Qed.
Lemma bw_oinf n : odd_inf (bw_odd n).
Proof. intros cz E. unfold bw_odd in E. destruct (Nat.odd n); [|discriminate]. injection E as <-. reflexivity. Qed.
Lemma c1_oinf n v : odd_inf (c1_odd n v).
Proof. intros cz E. unfold c1_odd, mk_odd in E. destruct (Nat.odd n); [|discriminate]. injection E as <-. reflexivity. Qed.
Lemma inf_mixed l : all_inf l -> mixed l.
Proof. intros H cz HI. rewrite (H cz HI). exact I. Qed.
Lemma flat_in prs od cz : In cz prs -> In cz (flat prs od).
Proof. intros HI. unfold flat. apply in_or_app. left. apply in_flat_map. exists cz. split; auto. destruct cz. left. reflexivity. Qed.
Lemma flat_od od prs cz : od = Some cz -> In (RtoC (fst cz), snd cz) (flat prs od).
Proof. intros ->. unfold flat. apply in_or_app. right. destruct cz. left. reflexivity. Qed.
Lemma inf_stop prs od : all_inf (flat prs od) -> stop_zeros prs.
Proof. intros H cz HI. left. apply H, flat_in, HI. Qed.
Lemma some_inf prs od n : (2 * length prs + ocount od = n)%nat -> (1 <= n)%nat -> all_inf (flat prs od) -> exists cz, In cz (flat prs od) /\ snd cz = Inf.
Proof.
  intros E Hn H. destruct prs as [|cz l].
  - destruct od as [cz|]; [|simpl in E; lia]. exists (RtoC (fst cz), snd cz). pose proof (flat_od (Some cz) [] cz eq_refl) as X. split; auto.
  - exists cz. assert (In cz (flat (cz :: l) od)) by (apply flat_in; left; reflexivity). split; auto.
Qed.
Lemma flat_neg prs od cz : ok_design prs od -> In cz (flat prs od) -> Re (fst cz) < 0.
Proof.
  intros OD HI. destruct (ok_parts prs od OD) as [A B]. unfold flat in HI. apply in_app_or in HI. destruct HI as [HI|HI].
  - apply in_flat_map in HI. destruct HI as [x [Hx HI]]. destruct (A x Hx) as [A1 _]. destruct x as [c z]. destruct HI as [<-|[<-|[]]]; simpl in *; auto.
  - destruct od as [x|]; [|destruct HI]. destruct HI as [<-|[]]. destruct (B x eq_refl) as [A1 _]. destruct x; simpl in *; auto.
Qed.

(** [afac] at x against [ifac] at 1/x, over a whole design *)
Lemma prod_ifac prs od x : ok_design prs od -> mixed (flat prs od) -> x <> 0 ->
  rprod (map (afac x) (flat prs od)) = rprod (map (afac 0) (flat prs od)) * rprod (map (ifac (1 / x)) (flat prs od)).
Proof.
  intros OD MX Hx. rewrite <- rprod_map_mult. apply rprod_map_ext. intros cz HI. apply afac_ifac; auto; [apply (flat_neg prs od); auto|apply MX; auto].
Qed.
Lemma afac0_inf prs od : ok_design prs od -> all_inf (flat prs od) -> rprod (map (afac 0) (flat prs od)) = 1.
Proof.
  intros OD AI. transitivity (rprod (map (fun _ : C * ecomplex => 1) (flat prs od))).
  - apply rprod_map_ext. intros cz HI. unfold afac. rewrite (AI cz HI). pose proof (cneg_nz _ (flat_neg prs od cz OD HI)) as P.
    replace (Cnorm2 (RtoC 0 * Ci - fst cz)%C) with (Cnorm2 (fst cz)) by (unfold Cnorm2; simpl; ring). field. lra.
  - clear. induction (flat prs od); simpl; auto. rewrite IHl. ring.
Qed.
Lemma ifac0_inf prs od : all_inf (flat prs od) -> (exists cz, In cz (flat prs od) /\ snd cz = Inf) -> rprod (map (ifac 0) (flat prs od)) = 0.
Proof.
  intros _ [cz [HI E]]. induction (flat prs od) as [|a l IH]; [destruct HI|]. cbn [map rprod]. destruct HI as [->|HI].
  - unfold ifac at 1. rewrite E. unfold Rdiv. ring.
  - rewrite IH by auto. ring.
Qed.

(** ** Butterworth *)
Lemma butter_bp checks cap n fs f0 bw : (1 <= n <= cap)%nat -> valid_band fs f0 bw -> checks = false \/ Nat.odd n = false ->
  let lo := low_edge fs f0 bw in let hi := high_edge fs f0 bw in
  exists c, butter_bandpass checks cap n fs f0 bw = Ok c /\ sections_ok c n cap /\
    (forall f, 0 < f -> 2 * f < fs -> exists h, cas_response c (at_freq f fs) h /\
       Cnorm2 h = (1 + ref_x fs lo hi ^ (2 * n)) / (1 + band_x fs lo hi f ^ (2 * n))) /\
    cas_response c at_dc C0 /\ cas_response c at_nyquist C0.
Proof.
  intros Hn V HC lo hi. assert (PP : forall x, 0 < 1 + x ^ (2 * n)).
  { intros x. rewrite pow_mult. assert (0 <= (x ^ 2) ^ n) by (apply pow_le; apply pow2_ge_0). lra. }
  destruct (bandpass_general checks cap n (bw_pairs n) (bw_odd n) 1 fs f0 bw (ok_bw n) (bw_count n) Hn (odd_none_bw _ _ HC) V)
    as [c [E [S [F [Z _]]]]].
  - rewrite bw_product by lia. pose proof (PP (ref_x fs lo hi)). unfold Rdiv. rewrite Rmult_1_l. apply Rinv_neq_0_compat. unfold lo, hi in *. lra.
  - exists c. split; [|split; [exact S|split]].
    + unfold butter_bandpass. rewrite butter_analog_ok by (auto; lia). exact E.
    + intros f F1 F2. destruct (F f F1 F2) as [h [Hh Hm]]. exists h. split; auto. rewrite Hm, !bw_product by lia.
      fold lo hi. pose proof (PP (ref_x fs lo hi)). pose proof (PP (band_x fs lo hi f)). field. lra.
    + apply Z. apply (some_inf _ _ n (bw_count n) ltac:(lia) (bw_inf n)).
Qed.

Definition stop2 (fs lo hi : R) : R := stop_b fs lo hi * stop_b fs lo hi.
Lemma stop_b_pos fs f0 bw : valid_band fs f0 bw -> 0 < stop_b fs (low_edge fs f0 bw) (high_edge fs f0 bw).
Proof.
  intros V. destruct (edge_angles _ _ _ V) as [A [B D]]. destruct (band_consts _ _ A B D) as [_ [X [_ [_ [_ [_ E]]]]]].
  unfold stop_b, warp. rewrite <- E. exact X.
Qed.
Lemma butter_bs checks cap n fs f0 bw : (1 <= n <= cap)%nat -> valid_band fs f0 bw -> checks = false \/ Nat.odd n = false ->
  let lo := low_edge fs f0 bw in let hi := high_edge fs f0 bw in
  exists c, butter_bandstop checks cap n fs f0 bw = Ok c /\ sections_ok c n cap /\
    (forall f, 0 < f -> 2 * f < fs -> exists h, cas_response c (at_freq f fs) h /\
       Cnorm2 h = band_x fs lo hi f ^ (2 * n) / (band_x fs lo hi f ^ (2 * n) + stop_b fs lo hi ^ (4 * n))) /\
    (exists h, cas_response c at_dc h /\ Cnorm2 h = 1) /\ (exists h, cas_response c at_nyquist h /\ Cnorm2 h = 1).
Proof.
  intros Hn V HC lo hi. pose proof (stop_b_pos _ _ _ V) as SB. fold lo hi in SB.
  destruct (bandstop_general checks cap n (bw_pairs n) (bw_odd n) 1 fs f0 bw (ok_bw n) (bw_oinf n) (inf_mixed _ (bw_inf n)) (inf_stop _ _ (bw_inf n)) (bw_count n) Hn
     (odd_none_bw _ _ HC) V) as [c [E [S [F [D N]]]]].
  exists c. split; [|split; [exact S|split; [|split]]].
  - unfold butter_bandstop. rewrite butter_analog_ok by (auto; lia). exact E.
  - intros f F1 F2. destruct (F f F1 F2) as [h [Hh Hm]]. exists h. split; auto. rewrite Hm. fold lo hi.
    set (b := stop_b fs lo hi) in *. set (x := band_x fs lo hi f). assert (Q : 0 < b ^ (4 * n)) by (apply pow_lt; auto).
    destruct (Req_dec x 0) as [X0|X0].
    + rewrite X0. replace (- (0 / (b * b))) with 0 by (field; lra). rewrite (ifac0_inf _ _ (bw_inf n) (some_inf _ _ n (bw_count n) ltac:(lia) (bw_inf n))).
      rewrite pow_i by lia. field. lra.
    + assert (NY : - (b * b / x) <> 0) by (intros G; apply (Rmult_eq_compat_r x) in G; unfold Rdiv in G; replace (- (b * b * / x) * x) with (- (b * b)) in G by (field; auto); nra).
      pose proof (prod_ifac _ _ (- (b * b / x)) (ok_bw n) (inf_mixed _ (bw_inf n)) NY) as PI'. rewrite (afac0_inf _ _ (ok_bw n) (bw_inf n)), bw_product in PI' by lia.
      replace (1 / - (b * b / x)) with (- (x / (b * b))) in PI' by (field; split; lra). rewrite Rmult_1_l in PI'. rewrite <- PI'.
      assert (XP : 0 < x ^ (2 * n)) by (rewrite pow_mult; apply pow_lt; rewrite <- Rsqr_pow2; apply Rsqr_pos_lt; auto).
      replace ((- (b * b / x)) ^ (2 * n)) with (b ^ (4 * n) / x ^ (2 * n)).
      * field. split; lra.
      * rewrite !pow_mult. replace ((- (b * b / x)) ^ 2) with (b ^ 4 * / (x ^ 2)) by (field; auto). rewrite Rpow_mult_distr, pow_inv. reflexivity.
  - destruct D as [h [A B]]. exists h. split; auto. lra.
  - destruct N as [h [A B]]. exists h. split; auto. lra.
Qed.

Lemma butter_bsh cap n fs f0 bw gain : (1 <= n <= cap)%nat -> valid_band fs f0 bw ->
  let lo := low_edge fs f0 bw in let hi := high_edge fs f0 bw in
  exists c, butter_bandshelf false cap n fs f0 bw gain = Ok c /\ sections_ok c n cap /\
    (forall f, 0 < f -> 2 * f < fs -> exists h, cas_response c (at_freq f fs) h /\
       Cnorm2 h = (pow10 (gain / 20) + band_x fs lo hi f ^ (2 * n)) / (/ pow10 (gain / 20) + band_x fs lo hi f ^ (2 * n))) /\
    (exists h, cas_response c at_dc h /\ Cnorm2 h = 1) /\ (exists h, cas_response c at_nyquist h /\ Cnorm2 h = 1).
Proof.
  intros Hn V lo hi. set (g := sh_g n gain). pose proof (sh_g_pos n gain) as GP. fold g in GP.
  destruct (bandshelf_general false cap n (sh_pairs g n) (sh_odd g n) PI 1 fs f0 bw (sh_design g GP n) (sh_fin g n GP) (sh_count g n) Hn (or_introl eq_refl) V)
    as [c [E [S [F [D N]]]]].
  exists c. split; [|split; [exact S|split; [|split; assumption]]].
  - unfold butter_bandshelf. rewrite butter_shelf_ok by lia. exact E.
  - intros f F1 F2. destruct (F f F1 F2) as [h [Hh Hm]]. exists h. split; auto. rewrite Hm, sh_product by (auto; lia). unfold g. rewrite sh_g_pow by lia. reflexivity.
Qed.

(** ** Chebyshev I *)
Lemma cheb1_pos n r x : 0 < r -> 0 < cheb1_mag n r x.
Proof.
  intros Hr. pose proof (pow10_gt1 (r / 10) ltac:(lra)). pose proof (Rle_0_sqr (cheb n x)) as Q. unfold Rsqr in Q. apply div_pos; [lra|]. nra.
Qed.
Lemma gain1_pos n r : 0 < gain1 n r.
Proof. unfold gain1. destruct (Nat.odd n); [lra|apply exp_pos]. Qed.
Lemma cheby1_bp checks cap n fs f0 bw r : (1 <= n <= cap)%nat -> valid_band fs f0 bw -> 0 < r -> checks = false \/ Nat.odd n = false ->
  let lo := low_edge fs f0 bw in let hi := high_edge fs f0 bw in
  exists c, cheby1_bandpass checks cap n fs f0 bw r = Ok c /\ sections_ok c n cap /\
    (forall f, 0 < f -> 2 * f < fs -> exists h, cas_response c (at_freq f fs) h /\
       Cnorm2 h = gain1 n r * gain1 n r * (cheb1_mag n r (band_x fs lo hi f) / cheb1_mag n r (ref_x fs lo hi))) /\
    cas_response c at_dc C0 /\ cas_response c at_nyquist C0.
Proof.
  intros Hn V Hr HC lo hi. pose proof (v1_pos n r ltac:(lia) Hr) as VP. pose proof (gain1_pos n r) as GP.
  pose proof (fun x => c1_mag n r x ltac:(lia) Hr) as CM. pose proof (fun x => cheb1_pos n r x Hr) as CP.
  destruct (bandpass_general checks cap n (c1_pairs n (v1 n r)) (c1_odd n (v1 n r)) (gain1 n r) fs f0 bw (ok_c1 n _ VP)
     (mk_count _ _ _ _ n) Hn (odd_none_mk _ _ _ _ HC) V) as [c [E [S [F [Z _]]]]].
  - specialize (CM (ref_x fs lo hi)). specialize (CP (ref_x fs lo hi)). intros X. unfold lo, hi in *. rewrite X in CM. lra.
  - exists c. split; [|split; [exact S|split]].
    + unfold cheby1_bandpass. rewrite cheby1_analog_ok by (auto; lia). exact E.
    + intros f F1 F2. destruct (F f F1 F2) as [h [Hh Hm]]. exists h. split; auto. rewrite Hm. fold lo hi. rewrite <- !CM.
      specialize (CP (ref_x fs lo hi)). rewrite <- CM in CP. set (A := rprod _) in CP |- *. field. split; [intros X; rewrite X in CP|]; lra.
    + apply Z. apply (some_inf _ _ n (mk_count _ _ _ _ n) ltac:(lia) (c1_inf n _)).
Qed.
Lemma cheby1_bs checks cap n fs f0 bw r : (1 <= n <= cap)%nat -> valid_band fs f0 bw -> 0 < r -> checks = false \/ Nat.odd n = false ->
  let lo := low_edge fs f0 bw in let hi := high_edge fs f0 bw in
  exists c, cheby1_bandstop checks cap n fs f0 bw r = Ok c /\ sections_ok c n cap /\
    (forall f, 0 < f -> 2 * f < fs -> exists h, cas_response c (at_freq f fs) h /\
       (band_x fs lo hi f = 0 -> Cnorm2 h = 0) /\ (band_x fs lo hi f <> 0 -> Cnorm2 h = cheb1_mag n r (stop2 fs lo hi / band_x fs lo hi f))) /\
    (exists h, cas_response c at_dc h /\ Cnorm2 h = gain1 n r * gain1 n r) /\ (exists h, cas_response c at_nyquist h /\ Cnorm2 h = gain1 n r * gain1 n r).
Proof.
  intros Hn V Hr HC lo hi. pose proof (v1_pos n r ltac:(lia) Hr) as VP. pose proof (stop_b_pos _ _ _ V) as SB. fold lo hi in SB.
  destruct (bandstop_general checks cap n (c1_pairs n (v1 n r)) (c1_odd n (v1 n r)) (gain1 n r) fs f0 bw (ok_c1 n _ VP) (c1_oinf n _) (inf_mixed _ (c1_inf n _))
     (inf_stop _ _ (c1_inf n _)) (mk_count _ _ _ _ n) Hn (odd_none_mk _ _ _ _ HC) V) as [c [E [S [F [D N]]]]].
  exists c. split; [|split; [exact S|split; [|split; assumption]]].
  - unfold cheby1_bandstop. rewrite cheby1_analog_ok by (auto; lia). exact E.
  - intros f F1 F2. destruct (F f F1 F2) as [h [Hh Hm]]. exists h. split; auto. rewrite Hm. fold lo hi. unfold stop2.
    set (b := stop_b fs lo hi) in *. set (x := band_x fs lo hi f). split; intros X0.
    + rewrite X0. replace (- (0 / (b * b))) with 0 by (field; lra). rewrite (ifac0_inf _ _ (c1_inf n _) (some_inf _ _ n (mk_count _ _ _ _ n) ltac:(lia) (c1_inf n _))). ring.
    + assert (NY : - (b * b / x) <> 0) by (intros G; apply (Rmult_eq_compat_r x) in G; unfold Rdiv in G; replace (- (b * b * / x) * x) with (- (b * b)) in G by (field; auto); nra).
      pose proof (prod_ifac _ _ (- (b * b / x)) (ok_c1 n _ VP) (inf_mixed _ (c1_inf n _)) NY) as PI'. rewrite (afac0_inf _ _ (ok_c1 n _ VP) (c1_inf n _)) in PI'.
      replace (1 / - (b * b / x)) with (- (x / (b * b))) in PI' by (field; split; lra). rewrite Rmult_1_l in PI'. rewrite <- PI'.
      rewrite c1_mag by (auto; lia). apply cheb1_mag_opp.
Qed.

(** ** Chebyshev II *)
Lemma c2_stop n v : stop_zeros (c2_pairs n v).
Proof. intros cz HI. unfold c2_pairs, mk_pairs in HI. apply in_map_iff in HI. destruct HI as [i [<- _]]. right. eexists. reflexivity. Qed.
Definition cheb2_pass (n : nat) (r x : R) : R := if Req_EM_T x 0 then 1 else cheb2_mag n r (1 / x).
Lemma mixed_afac0 prs od : ok_design prs od -> mixed (flat prs od) -> 0 < rprod (map (afac 0) (flat prs od)).
Proof.
  intros OD MX. apply rprod_pos. intros a Ha. apply in_map_iff in Ha. destruct Ha as [cz [<- HI]].
  pose proof (cneg_nz _ (flat_neg prs od cz OD HI)) as P. pose proof (MX cz HI) as X. unfold afac.
  assert (G : forall d, Cnorm2 (RtoC 0 * Ci - d)%C = Cnorm2 d) by (intros d; unfold Cnorm2; simpl; ring).
  destruct (snd cz) as [d|]; rewrite !G; apply div_pos; auto. apply C_neq0, X.
Qed.
Lemma c2_pass n r x : (0 < n)%nat -> 0 < r ->
  rprod (map (afac x) (flat (c2_pairs n (v2 n r)) (c2_odd n (v2 n r)))) =
  rprod (map (afac 0) (flat (c2_pairs n (v2 n r)) (c2_odd n (v2 n r)))) * cheb2_pass n r x.
Proof.
  intros Hn Hr. pose proof (v2_pos n r Hn Hr) as VP. unfold cheb2_pass. destruct (Req_EM_T x 0) as [->|N]; [ring|].
  rewrite (prod_ifac _ _ x (ok_c2 n _ VP) (c2_mixed n _) N). f_equal. rewrite <- (c2_mag n r) by auto. ring.
Qed.
Lemma cheby2_bp checks cap n fs f0 bw r : (1 <= n <= cap)%nat -> valid_band fs f0 bw -> 0 < r -> checks = false \/ Nat.odd n = false ->
  let lo := low_edge fs f0 bw in let hi := high_edge fs f0 bw in cheb2_pass n r (ref_x fs lo hi) <> 0 ->
  exists c, cheby2_bandpass checks cap n fs f0 bw r = Ok c /\ sections_ok c n cap /\
    (forall f, 0 < f -> 2 * f < fs -> exists h, cas_response c (at_freq f fs) h /\
       Cnorm2 h = cheb2_pass n r (band_x fs lo hi f) / cheb2_pass n r (ref_x fs lo hi)) /\
    (forall z, z = at_dc \/ z = at_nyquist -> exists h, cas_response c z h /\ Cnorm2 h = cheb2_mag n r 0 / cheb2_pass n r (ref_x fs lo hi)).
Proof.
  intros Hn V Hr HC lo hi HX. pose proof (v2_pos n r ltac:(lia) Hr) as VP.
  pose proof (mixed_afac0 _ _ (ok_c2 n _ VP) (c2_mixed n (v2 n r))) as A0.
  destruct (bandpass_general checks cap n (c2_pairs n (v2 n r)) (c2_odd n (v2 n r)) 1 fs f0 bw (ok_c2 n _ VP)
     (mk_count _ _ _ _ n) Hn (odd_none_mk _ _ _ _ HC) V) as [c [E [S [F [_ Z]]]]].
  - fold lo hi. rewrite c2_pass by (auto; lia). apply Rmult_integral_contrapositive_currified; auto. lra.
  - exists c. split; [|split; [exact S|split]].
    + unfold cheby2_bandpass. rewrite cheby2_analog_ok by (auto; lia). exact E.
    + intros f F1 F2. destruct (F f F1 F2) as [h [Hh Hm]]. exists h. split; auto. rewrite Hm. fold lo hi.
      rewrite (c2_pass n r (band_x fs lo hi f)), (c2_pass n r (ref_x fs lo hi)) by (auto; lia). field. split; auto. lra.
    + intros z Hz. destruct (Z (c2_mixed n _) z Hz) as [h [Hh Hm]]. exists h. split; auto. rewrite Hm. fold lo hi.
      rewrite (c2_pass n r (ref_x fs lo hi)) by (auto; lia). rewrite <- (c2_mag n r 0) by (auto; lia). field. split; auto. lra.
Qed.
Lemma cheby2_bp_zero checks cap n fs f0 bw r : (1 <= n <= cap)%nat -> valid_band fs f0 bw -> 0 < r -> checks = false \/ Nat.odd n = false ->
  let lo := low_edge fs f0 bw in let hi := high_edge fs f0 bw in cheb2_pass n r (ref_x fs lo hi) = 0 ->
  cheby2_bandpass checks cap n fs f0 bw r = NonFinite.
Proof.
  intros Hn V Hr HC lo hi HX. pose proof (v2_pos n r ltac:(lia) Hr) as VP. unfold cheby2_bandpass. rewrite cheby2_analog_ok by (auto; lia).
  apply bandpass_zero with (n := n); auto; [apply (ok_c2 n _ VP)|apply (mk_count _ _ _ _ n)|apply (odd_none_mk _ _ _ _ HC)|].
  fold lo hi. rewrite c2_pass by (auto; lia). rewrite HX. ring.
Qed.
Lemma cheby2_bs checks cap n fs f0 bw r : (1 <= n <= cap)%nat -> valid_band fs f0 bw -> 0 < r -> checks = false \/ Nat.odd n = false ->
  let lo := low_edge fs f0 bw in let hi := high_edge fs f0 bw in
  exists c, cheby2_bandstop checks cap n fs f0 bw r = Ok c /\ sections_ok c n cap /\
    (forall f, 0 < f -> 2 * f < fs -> exists h, cas_response c (at_freq f fs) h /\
       Cnorm2 h = cheb2_mag n r (band_x fs lo hi f / stop2 fs lo hi)) /\
    (exists h, cas_response c at_dc h /\ Cnorm2 h = 1) /\ (exists h, cas_response c at_nyquist h /\ Cnorm2 h = 1).
Proof.
  intros Hn V Hr HC lo hi. pose proof (v2_pos n r ltac:(lia) Hr) as VP.
  destruct (bandstop_general checks cap n (c2_pairs n (v2 n r)) (c2_odd n (v2 n r)) 1 fs f0 bw (ok_c2 n _ VP) (c2_oinf n _) (c2_mixed n _)
     (c2_stop n _) (mk_count _ _ _ _ n) Hn (odd_none_mk _ _ _ _ HC) V) as [c [E [S [F [D N]]]]].
  exists c. split; [|split; [exact S|split; [|split]]].
  - unfold cheby2_bandstop. rewrite cheby2_analog_ok by (auto; lia). exact E.
  - intros f F1 F2. destruct (F f F1 F2) as [h [Hh Hm]]. exists h. split; auto. rewrite Hm. rewrite c2_mag by (auto; lia). apply cheb2_mag_opp.
  - destruct D as [h [A B]]. exists h. split; auto. lra.
  - destruct N as [h [A B]]. exists h. split; auto. lra.
Qed.

Lemma cheby_bsh checks cap n fs f0 bw gain r : (1 <= n <= cap)%nat -> valid_band fs f0 bw -> 0 < r < Rabs gain -> checks = false \/ Nat.odd n = false ->
  let lo := low_edge fs f0 bw in let hi := high_edge fs f0 bw in
  exists c, cheby_bandshelf checks cap n fs f0 bw gain r = Ok c /\ sections_ok c n cap /\
    (forall f, 0 < f -> 2 * f < fs -> exists h, cas_response c (at_freq f fs) h /\ Cnorm2 h = cheb_shelf_mag n gain r (band_x fs lo hi f)) /\
    (exists h, cas_response c at_dc h /\ Cnorm2 h = 1) /\ (exists h, cas_response c at_nyquist h /\ Cnorm2 h = 1).
Proof.
  intros Hn V Hr HC lo hi. destruct (cheby_shelf_ok checks cap n gain r ltac:(lia) Hr) as [eps [He [E2 EA]]].
  assert (PG : 0 < pow10 (- gain / 20)) by apply exp_pos. set (u := shelf_u n (pow10 (- gain / 20)) eps). set (v := shelf_v n eps).
  assert (UP : 0 < u) by (apply shelf_uv_pos; [lia|apply div_pos; auto]). assert (VP : 0 < v) by (apply shelf_uv_pos; [lia|apply div_pos; lra]).
  destruct (bandshelf_general checks cap n (cs_pairs n u v) (cs_odd n u v) PI 1 fs f0 bw (ok_cs n _ _ UP VP) (cs_fin n _ _ VP) (mk_count _ _ _ _ n) Hn
    (odd_none_mk _ _ _ _ HC) V) as [c [E [S [F [D N]]]]].
  exists c. split; [|split; [exact S|split; [|split; assumption]]].
  - unfold cheby_bandshelf. rewrite EA. exact E.
  - intros f F1 F2. destruct (F f F1 F2) as [h [Hh Hm]]. exists h. split; auto. rewrite Hm. apply cs_mag; auto. lia.
Qed.
