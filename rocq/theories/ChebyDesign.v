From Coq Require Import Psatz Lia List.
From Verif Require Import RealBase RealBaseProofs BaseProofs Cplx CplxProofs PolyProofs BiquadModel BiquadSpec BiquadProofs.
From Verif Require Import StabilityProofs CascadeProofs DesignModel DesignSpec DesignProofs DesignProofs2 LayoutModel LayoutProofs BilinearProofs ButterProofs ButterShelfProofs.
From Verif Require Import ChebySpec ChebyProofs ChebyModel.
Import ListNotations.
Local Open Scope R_scope.

(** ** Filling a layout *)
Lemma loop_ok (L : nat -> nat -> layout -> res layout) (pf : nat -> C) (zf : nat -> ecomplex) off cap w g n :
  (forall i l, L i 0%nat l = Ok l) ->
  (forall i m l, (2 * (i + 1) <= n)%nat -> L (off + i)%nat (S m) l = bind (lay_insert_conjugate l (pf i) (zf i)) (L (off + i + 1)%nat m)) ->
  (n <= cap)%nat -> forall m i done, (2 * (i + m) <= n)%nat -> length done = i ->
  L (off + i)%nat m (lay_of cap (map cpair done) (2 * i) w g) =
  Ok (lay_of cap (map cpair (done ++ map (fun i => (pf i, zf i)) (seq i m))) (2 * (i + m)) w g).
Proof.
  intros L0 LS Hn. induction m as [|m IH]; intros i done HL HD.
  - rewrite L0. cbn [seq map]. rewrite app_nil_r, Nat.add_0_r. reflexivity.
  - rewrite LS by lia. cbn [seq map].
    replace (2 * i)%nat with (2 * length (map cpair done))%nat by (rewrite map_length; lia).
    rewrite insert_conj_ok by (rewrite map_length; lia). cbn [bind].
    replace (map cpair done ++ [_]) with (map cpair (done ++ [(pf i, zf i)])) by (rewrite map_app; reflexivity).
    replace (2 * length (map cpair (done ++ [(pf i, zf i)])))%nat with (2 * (i + 1))%nat
      by (rewrite map_length, app_length; cbn [length]; lia).
    replace (off + i + 1)%nat with (off + (i + 1))%nat by lia.
    rewrite IH; [|lia|rewrite app_length; cbn [length]; lia].
    replace (i + 1 + m)%nat with (i + S m)%nat by lia. rewrite <- app_assoc. cbn [app]. rewrite (Nat.add_comm i 1). reflexivity.
Qed.

Definition mk_pairs (pf : nat -> C) (zf : nat -> ecomplex) (n : nat) : list (C * ecomplex) := map (fun i => (pf i, zf i)) (seq 0 (n / 2)).
Definition mk_odd (p : R) (z : ecomplex) (n : nat) : option (R * ecomplex) := if Nat.odd n then Some (p, z) else None.
Lemma mk_len pf zf n : length (mk_pairs pf zf n) = (n / 2)%nat.
Proof. unfold mk_pairs. rewrite map_length, seq_length. reflexivity. Qed.
Lemma mk_count pf zf p z n : (2 * length (mk_pairs pf zf n) + ocount (mk_odd p z n) = n)%nat.
Proof. rewrite mk_len. pose proof (half_split n). unfold mk_odd. destruct (Nat.odd n); cbn [ocount]; lia. Qed.

Lemma fill_ok (L : nat -> nat -> layout -> res layout) pf zf off cap w g n :
  (forall i l, L i 0%nat l = Ok l) ->
  (forall i m l, (2 * (i + 1) <= n)%nat -> L (off + i)%nat (S m) l = bind (lay_insert_conjugate l (pf i) (zf i)) (L (off + i + 1)%nat m)) ->
  (n <= cap)%nat ->
  L off (n / 2)%nat (lay_of cap [] 0 w g) = Ok (lay_of cap (map cpair (mk_pairs pf zf n)) (2 * (n / 2)) w g).
Proof.
  intros L0 LS Hn. pose proof (half_split n) as HS.
  pose proof (loop_ok L pf zf off cap w g n L0 LS Hn (n / 2) 0 [] ltac:(lia) eq_refl) as E.
  rewrite Nat.add_0_r, Nat.add_0_l in E. exact E.
Qed.
Lemma even_analog cap pf zf n p z w g : Nat.odd n = false ->
  lay_of cap (map cpair (mk_pairs pf zf n)) (2 * (n / 2)) w g = analog cap (mk_pairs pf zf n) (mk_odd p z n) w g.
Proof. intros E. unfold analog, mk_odd. rewrite E. cbn [olist ocount]. rewrite app_nil_r, Nat.add_0_r, mk_len. reflexivity. Qed.
Lemma odd_analog checks cap pf zf n p z w g : (0 < n <= cap)%nat -> Nat.odd n = true ->
  checks = false \/ imag_is_zero z = true ->
  lay_insert checks (lay_of cap (map cpair (mk_pairs pf zf n)) (2 * (n / 2)) w g) (RtoC p) z
    = Ok (analog cap (mk_pairs pf zf n) (mk_odd p z n) w g).
Proof.
  intros Hn E HC. pose proof (half_split n) as HS. rewrite E in HS. unfold analog, mk_odd. rewrite E.
  replace (2 * (n / 2))%nat with (2 * length (map cpair (mk_pairs pf zf n)))%nat by (rewrite map_length, mk_len; lia).
  rewrite insert_single_ok; [|rewrite map_length, mk_len; lia|destruct HC; [left; auto|right; split; auto]].
  cbn [olist ocount]. rewrite map_length. reflexivity.
Qed.
Lemma odd_analog_ub cap pf zf n p w g : lay_insert true (lay_of cap (map cpair (mk_pairs pf zf n)) (2 * (n / 2)) w g) p Inf = UB.
Proof.
  replace (2 * (n / 2))%nat with (2 * length (map cpair (mk_pairs pf zf n)))%nat by (rewrite map_length, mk_len; lia).
  apply insert_single_ub. reflexivity.
Qed.

Lemma mk_product (F : C * ecomplex -> R) pf zf p z (g : nat -> R) n : (0 < n)%nat ->
  (forall i, (i < n / 2)%nat -> F (pf i, zf i) * F (Cconj (pf i), econj (zf i)) = g i * g (n - 1 - i)%nat) ->
  (Nat.odd n = true -> F (RtoC p, z) = g (n / 2)%nat) ->
  rprod (map F (flat (mk_pairs pf zf n) (mk_odd p z n))) = prodf g n.
Proof.
  intros Hn HP HO. unfold flat. rewrite map_app, rprod_app, rprod_flat_map. rewrite prodf_half. f_equal.
  - unfold mk_pairs. rewrite map_map, rprod_seq. apply prodf_ext. intros i Hi. rewrite <- HP by auto.
    unfold cz_conj. cbn [map rprod fst snd]. ring.
  - unfold mk_odd. destruct (Nat.odd n); [|reflexivity]. cbn [olist map rprod fst snd]. rewrite HO by auto. ring.
Qed.
Lemma in_flat_mk pf zf p z n cz : In cz (flat (mk_pairs pf zf n) (mk_odd p z n)) ->
  (exists i, (i < n / 2)%nat /\ (cz = (pf i, zf i) \/ cz = (Cconj (pf i), econj (zf i)))) \/ (Nat.odd n = true /\ cz = (RtoC p, z)).
Proof.
  intros HI. unfold flat in HI. apply in_app_or in HI. destruct HI as [HI|HI].
  - left. apply in_flat_map in HI. destruct HI as [x [Hx HI]]. unfold mk_pairs in Hx. apply in_map_iff in Hx. destruct Hx as [i [<- Hi]].
    apply in_seq in Hi. exists i. split; [lia|]. destruct HI as [<-|[<-|[]]]; auto.
  - right. unfold mk_odd in HI. destruct (Nat.odd n); [|destruct HI]. destruct HI as [<-|[]]. auto.
Qed.

(** ** The Chebyshev poles *)
Definition ch_pole (n : nat) (v : R) (k : nat) : C := cc (- (sinh v * sin (thetak n k))) (- (cosh v * cos (thetak n k))).
Lemma thetak_mid n : Nat.odd n = true -> thetak n (n / 2) = PI / 2.
Proof.
  intros O. unfold thetak. apply Nat.odd_spec in O. destruct O as [m ->].
  replace ((2 * m + 1) / 2)%nat with m by (rewrite Nat.add_comm, Nat.mul_comm, Nat.div_add by lia; reflexivity).
  rewrite mult_INR, plus_INR, mult_INR. simpl (INR 1). simpl (INR 2). pose proof (pos_INR m). field. lra.
Qed.
Lemma thetak_sc n k : (k < n / 2)%nat -> 0 < sin (thetak n k) /\ 0 < cos (thetak n k).
Proof. intros Hk. pose proof (thetak_range n k Hk). split; [apply sin_gt_0; lra|apply cos_gt_0; lra]. Qed.
Lemma half_le n k : (k < n / 2)%nat -> (k < n)%nat.
Proof. intros H. pose proof (half_split n). destruct (Nat.odd n); lia. Qed.

Lemma ch_dist n v x k : Cnorm2 (RtoC x * Ci - ch_pole n v k)%C = chfac n v x k.
Proof.
  unfold ch_pole, chfac, Cnorm2, cc. simpl. pose proof (sin2_cos2 (thetak n k)) as S. unfold Rsqr in S. pose proof (cosh2 v) as Q.
  set (c := cos (thetak n k)) in *. set (s := sin (thetak n k)) in *. set (A := cosh v) in *. set (B := sinh v) in *. clearbody c s A B.
  transitivity (x * x + 2 * x * A * c + A * A * (c * c) + B * B * (s * s)); [ring|].
  replace (B * B) with (A * A - 1) by lra. replace (c * c) with (1 - s * s) by lra. ring.
Qed.
Lemma chfac_flip n v x k : (k < n)%nat -> chfac n v x (n - 1 - k) = chfac n v (- x) k.
Proof.
  intros Hk. unfold chfac. rewrite thetak_flip by lia. rewrite Rtrigo_facts.cos_pi_minus, Rtrigo_facts.sin_pi_minus. ring.
Qed.
Lemma ch_dist_conj n v x k : (k < n)%nat -> Cnorm2 (RtoC x * Ci - Cconj (ch_pole n v k))%C = chfac n v x (n - 1 - k).
Proof.
  intros Hk. rewrite chfac_flip by auto. rewrite <- ch_dist. unfold Cnorm2; simpl. ring.
Qed.
Lemma ch_dist_mid n v x : Nat.odd n = true -> Cnorm2 (RtoC x * Ci - RtoC (- sinh v))%C = chfac n v x (n / 2).
Proof.
  intros O. rewrite <- ch_dist. unfold ch_pole, cc. rewrite thetak_mid, cos_PI2, sin_PI2 by auto. unfold Cnorm2; simpl. ring.
Qed.
Lemma chfac_pos n v x k : (k < n)%nat -> sinh v <> 0 -> 0 < chfac n v x k.
Proof.
  intros Hk Hv. rewrite <- ch_dist. apply C_neq0. intros E. apply (f_equal Re) in E. unfold ch_pole, cc in E. simpl in E.
  assert (HN : 0 < INR n) by (apply lt_0_INR; lia). pose proof (pos_INR k). pose proof PI_RGT_0.
  assert (0 < sin (thetak n k)).
  { assert (Hk' : INR k + 1 <= INR n) by (rewrite <- S_INR; apply le_INR; lia).
    apply sin_gt_0; unfold thetak; rewrite mult_INR; simpl (INR 2).
    - apply Rmult_lt_0_compat; [nra|apply Rinv_0_lt_compat; lra].
    - apply (Rmult_lt_reg_r (2 * INR n)); [lra|]. unfold Rdiv. rewrite Rmult_assoc, Rinv_l by lra. nra. }
  assert (sinh v * sin (thetak n k) = 0) by lra. apply Rmult_integral in H2. destruct H2; lra.
Qed.
Lemma prodf_pos f n : (forall k, (k < n)%nat -> 0 < f k) -> 0 < prodf f n.
Proof. induction n; intros HF; simpl; [lra|]. apply Rmult_lt_0_compat; [apply IHn; intros; apply HF; lia|apply HF; lia]. Qed.
Lemma prodf_div f g n : (forall k, (k < n)%nat -> g k <> 0) -> prodf (fun k => f k / g k) n = prodf f n / prodf g n.
Proof.
  intros HG. assert (X : prodf g n <> 0 /\ prodf (fun k => f k / g k) n = prodf f n / prodf g n); [|tauto].
  revert HG. induction n; intros HG; simpl; [split; [lra|field]|].
  destruct IHn as [A B]; [intros; apply HG; lia|]. assert (g n <> 0) by (apply HG; lia). split.
  - apply Rmult_integral_contrapositive_currified; auto.
  - rewrite B. field. auto.
Qed.
Lemma ch_quotient n u v x y : (0 < n)%nat -> sinh v <> 0 ->
  prodf (fun k => chfac n u x k / chfac n v y k) n =
  (cheb n x * cheb n x + sinh (INR n * u) * sinh (INR n * u)) / (cheb n y * cheb n y + sinh (INR n * v) * sinh (INR n * v)).
Proof.
  intros Hn Hv. pose proof (fun k Hk => chfac_pos n v y k Hk Hv) as P.
  rewrite prodf_div by (intros k Hk; specialize (P k Hk); lra).
  pose proof (prodf_pos _ _ P) as Q. rewrite !cheb_product in * by auto.
  assert (P4 : 0 < 4 ^ n) by (apply pow_lt; lra).
  assert (D : 0 < cheb n y * cheb n y + sinh (INR n * v) * sinh (INR n * v)).
  { apply (Rmult_lt_reg_l (4 / 4 ^ n)); [apply Rmult_lt_0_compat; [lra|apply Rinv_0_lt_compat; auto]|]. rewrite Rmult_0_r.
    replace (4 / 4 ^ n * (cheb n y * cheb n y + sinh (INR n * v) * sinh (INR n * v))) with (4 * (cheb n y * cheb n y + sinh (INR n * v) * sinh (INR n * v)) / 4 ^ n) by (field; lra). auto. }
  field. lra.
Qed.

(** ** Type I *)
Definition c1_pairs (n : nat) (v : R) := mk_pairs (ch_pole n v) (fun _ => Inf) n.
Definition c1_odd (n : nat) (v : R) := mk_odd (- sinh v) Inf n.

Lemma sinh_pos v : 0 < v -> 0 < sinh v.
Proof. intros Hv. rewrite <- sinh_0. apply sinh_lt. auto. Qed.

Lemma ok_c1 n v : 0 < v -> ok_design (c1_pairs n v) (c1_odd n v).
Proof.
  intros Hv s f Hs Hf. pose proof (sinh_pos v Hv) as SP. constructor; auto.
  - intros cz HI. apply in_map_iff in HI. destruct HI as [i [<- HI]]. apply in_seq in HI.
    cbn [fst snd]. split; [|split; [exact I|left; reflexivity]]. unfold ch_pole, cc; simpl.
    destruct (thetak_sc n i ltac:(lia)). nra.
  - intros cz HO. unfold c1_odd, mk_odd in HO. destruct (Nat.odd n); [|discriminate]. injection HO as <-. simpl. split; [lra|].
    split; auto. intros c E; discriminate.
Qed.
Lemma c1_inf n v : all_inf (flat (c1_pairs n v) (c1_odd n v)).
Proof.
  intros cz HI. apply in_flat_mk in HI. destruct HI as [[i [Hi [->| ->]]]|[_ ->]]; reflexivity.
Qed.
Lemma c1_product n v x : (0 < n)%nat -> 0 < v ->
  rprod (map (afac x) (flat (c1_pairs n v) (c1_odd n v))) =
  (cheb n 0 * cheb n 0 + sinh (INR n * v) * sinh (INR n * v)) / (cheb n x * cheb n x + sinh (INR n * v) * sinh (INR n * v)).
Proof.
  intros Hn Hv. pose proof (sinh_pos v Hv) as SP. rewrite <- ch_quotient by (auto; lra).
  assert (Z : forall c, Cnorm2 c = Cnorm2 (RtoC 0 * Ci - c)%C) by (intros c; unfold Cnorm2; simpl; ring).
  apply mk_product; auto.
  - intros i Hi. pose proof (half_le n i Hi) as Hn'. unfold afac. cbn [fst snd econj].
    rewrite (Z (ch_pole n v i)), (Z (Cconj (ch_pole n v i))), !ch_dist, !ch_dist_conj by auto. reflexivity.
  - intros O. unfold afac. cbn [fst snd]. rewrite (Z (RtoC (- sinh v))), !(ch_dist_mid n) by auto. reflexivity.
Qed.

(** Angles of the code: kpi/2n with k = 2i+1-n. *)
Lemma c1_angle n i : (0 < n)%nat -> (2 * INR i + 1 - INR n) * PI / INR (n * 2) = thetak n i - PI / 2.
Proof.
  intros Hn. unfold thetak. rewrite (Nat.mul_comm n 2), mult_INR. simpl (INR 2). field. apply INR_neq0; lia.
Qed.
Lemma c1_pole v n i : cmk (- sinh v * cos (thetak n i - PI / 2)) (cosh v * sin (thetak n i - PI / 2)) = ch_pole n v i.
Proof.
  unfold cmk, ch_pole, cc. rewrite cos_minus, sin_minus, cos_PI2, sin_PI2. apply C_eq; simpl; ring.
Qed.

Definition eps1 (r : R) : R := sqrt (Rpower 10 (r / 10) - 1).
Definition v1 (n : nat) (r : R) : R := arcsinh (1 / eps1 r) / INR n.
Lemma pow10_gt1 x : 0 < x -> 1 < Rpower 10 x.
Proof. intros Hx. rewrite <- (Rpower_O 10) by lra. apply Rpower_lt; lra. Qed.
Lemma pow10_le1 x : x <= 0 -> Rpower 10 x <= 1.
Proof. intros Hx. rewrite <- (Rpower_O 10) by lra. apply Rle_Rpower; lra. Qed.
Lemma eps1_pos r : 0 < r -> 0 < eps1 r.
Proof. intros Hr. apply sqrt_lt_R0. pose proof (pow10_gt1 (r / 10) ltac:(lra)). lra. Qed.
Lemma eps1_sq r : 0 < r -> eps1 r * eps1 r = Rpower 10 (r / 10) - 1.
Proof. intros Hr. apply sqrt_sqrt. pose proof (pow10_gt1 (r / 10) ltac:(lra)). lra. Qed.
Lemma arcsinh_pos x : 0 < x -> 0 < arcsinh x.
Proof. intros Hx. rewrite <- arcsinh_0. apply arcsinh_lt. auto. Qed.
Lemma div_pos a b : 0 < a -> 0 < b -> 0 < a / b.
Proof. intros. apply Rmult_lt_0_compat; [auto|apply Rinv_0_lt_compat; auto]. Qed.
Lemma v1_pos n r : (0 < n)%nat -> 0 < r -> 0 < v1 n r.
Proof.
  intros Hn Hr. apply div_pos; [|apply lt_0_INR; auto]. apply arcsinh_pos. apply div_pos; [lra|apply eps1_pos; auto].
Qed.
Lemma v1_sinh n r : (0 < n)%nat -> sinh (INR n * v1 n r) = 1 / eps1 r.
Proof.
  intros Hn. replace (INR n * v1 n r) with (arcsinh (1 / eps1 r)); [apply sinh_arcsinh|]. unfold v1. field. apply INR_neq0; lia.
Qed.
Lemma exp_ripple r : 1 / exp (- r * (1 / 10) * ln 10) = Rpower 10 (r / 10).
Proof.
  unfold Rpower. replace (- r * (1 / 10) * ln 10) with (- (r / 10 * ln 10)) by field. rewrite exp_Ropp.
  pose proof (exp_pos (r / 10 * ln 10)). field. lra.
Qed.
Definition gain1 (n : nat) (r : R) : R := if Nat.odd n then 1 else pow10 (- r / 20).

Lemma cheby1_analog_ok checks cap n r : (0 < n <= cap)%nat -> 0 < r -> checks = false \/ Nat.odd n = false ->
  cheby1_analog checks (lay_new cap) n r = Ok (analog cap (c1_pairs n (v1 n r)) (c1_odd n (v1 n r)) 0 (gain1 n r)).
Proof.
  intros Hn Hr HC. unfold cheby1_analog. change (length (pairs (lay_new cap))) with (length (repeat pz_default cap)). rewrite repeat_length.
  destruct (Nat.ltb_spec cap n); [lia|]. cbv zeta.
  rewrite rdiv_ok by (pose proof (exp_pos (- r * (1 / 10) * ln 10)); lra). cbn [bind]. rewrite exp_ripple.
  rewrite rsqrt_ok by (pose proof (pow10_gt1 (r / 10) ltac:(lra)); lra). cbn [bind].
  fold (eps1 r). rewrite rdiv_ok by (pose proof (eps1_pos r Hr); lra). cbn [bind].
  rewrite rdiv_ok by (apply INR_neq0; lia). cbn [bind]. fold (v1 n r).
  change (lay_reset (lay_new cap)) with (lay_of cap [] 0 0 1) || (replace (lay_reset (lay_new cap)) with (lay_of cap [] 0 0 1)
     by (unfold lay_of, lay_reset, lay_new; cbn [length app]; rewrite Nat.sub_0_r; reflexivity)).
  rewrite (fill_ok (cheby1_pairs n (- sinh (v1 n r)) (cosh (v1 n r))) (ch_pole n (v1 n r)) (fun _ => Inf) 0).
  - cbn [bind]. destruct (Nat.odd n) eqn:Eo.
    + destruct HC as [->|HC]; [|discriminate]. change (cmk (- sinh (v1 n r)) 0) with (RtoC (- sinh (v1 n r))).
      rewrite odd_analog by (auto; lia). cbn [bind]. unfold gain1. rewrite Eo. reflexivity.
    + unfold gain1. rewrite Eo. rewrite (even_analog cap _ _ n (- sinh (v1 n r)) Inf) by auto. reflexivity.
  - reflexivity.
  - intros i m l Hi. cbn [cheby1_pairs]. rewrite rdiv_ok by (apply INR_neq0; lia). cbn [bind].
    rewrite Nat.add_0_l. rewrite c1_angle by lia. rewrite c1_pole. reflexivity.
  - lia.
Qed.
Lemma cheby1_analog_ub cap n r : (0 < n <= cap)%nat -> 0 < r -> Nat.odd n = true -> cheby1_analog true (lay_new cap) n r = UB.
Proof.
  intros Hn Hr Eo. unfold cheby1_analog. change (length (pairs (lay_new cap))) with (length (repeat pz_default cap)). rewrite repeat_length.
  destruct (Nat.ltb_spec cap n); [lia|]. cbv zeta.
  rewrite rdiv_ok by (pose proof (exp_pos (- r * (1 / 10) * ln 10)); lra). cbn [bind]. rewrite exp_ripple.
  rewrite rsqrt_ok by (pose proof (pow10_gt1 (r / 10) ltac:(lra)); lra). cbn [bind].
  fold (eps1 r). rewrite rdiv_ok by (pose proof (eps1_pos r Hr); lra). cbn [bind].
  rewrite rdiv_ok by (apply INR_neq0; lia). cbn [bind]. fold (v1 n r).
  change (lay_reset (lay_new cap)) with (lay_of cap [] 0 0 1) || (replace (lay_reset (lay_new cap)) with (lay_of cap [] 0 0 1)
     by (unfold lay_of, lay_reset, lay_new; cbn [length app]; rewrite Nat.sub_0_r; reflexivity)).
  rewrite (fill_ok (cheby1_pairs n (- sinh (v1 n r)) (cosh (v1 n r))) (ch_pole n (v1 n r)) (fun _ => Inf) 0).
  - cbn [bind]. rewrite Eo, odd_analog_ub. reflexivity.
  - reflexivity.
  - intros i m l Hi. cbn [cheby1_pairs]. rewrite rdiv_ok by (apply INR_neq0; lia). cbn [bind].
    rewrite Nat.add_0_l. rewrite c1_angle by lia. rewrite c1_pole. reflexivity.
  - lia.
Qed.
Lemma cheby1_analog_bad checks cap n r : (0 < n <= cap)%nat -> r <= 0 -> cheby1_analog checks (lay_new cap) n r = NonFinite.
Proof.
  intros Hn Hr. unfold cheby1_analog. change (length (pairs (lay_new cap))) with (length (repeat pz_default cap)). rewrite repeat_length.
  destruct (Nat.ltb_spec cap n); [lia|]. cbv zeta.
  rewrite rdiv_ok by (pose proof (exp_pos (- r * (1 / 10) * ln 10)); lra). cbn [bind]. rewrite exp_ripple.
  pose proof (pow10_le1 (r / 10) ltac:(lra)) as P. unfold rsqrt. destruct (Rlt_dec _ 0); [reflexivity|].
  replace (Rpower 10 (r / 10) - 1) with 0 by lra. rewrite sqrt_0. cbn [bind]. rewrite rdiv_zero. reflexivity.
Qed.

Definition cheb1_mag (n : nat) (r x : R) : R := 1 / (1 + (Rpower 10 (r / 10) - 1) * (cheb n x * cheb n x)).
Lemma c1_mag n r x : (0 < n)%nat -> 0 < r ->
  gain1 n r * gain1 n r * rprod (map (afac x) (flat (c1_pairs n (v1 n r)) (c1_odd n (v1 n r)))) = cheb1_mag n r x.
Proof.
  intros Hn Hr. rewrite c1_product, v1_sinh by (auto; apply v1_pos; auto).
  pose proof (eps1_pos r Hr) as EP. pose proof (eps1_sq r Hr) as E2. unfold cheb1_mag. rewrite <- E2. rewrite cheb_at_0.
  set (e := eps1 r) in *. set (t := cheb n x). clearbody t. assert (0 <= t * t) by apply Rle_0_sqr.
  assert (D : 0 < 1 + e * e * (t * t)) by (assert (0 < e * e) by nra; nra).
  unfold gain1. destruct (Nat.odd n).
  - field. split; [lra|nra].
  - assert (G : pow10 (- r / 20) * pow10 (- r / 20) = / (1 + e * e)).
    { unfold pow10. rewrite <- Rpower_plus. replace (- r / 20 + - r / 20) with (- (r / 10)) by field. rewrite Rpower_Ropp. f_equal. lra. }
    rewrite G. field. repeat split; try lra; nra.
Qed.

Lemma cheby1_low_lemma checks cap n fs fc r : (1 <= n <= cap)%nat -> valid_freq fc fs -> 0 < r -> checks = false \/ Nat.odd n = false ->
  exists c, cheby1_lowpass checks cap n fs fc r = Ok c /\ built cap n c /\
    (forall f, 0 <= f -> 2 * f < fs -> exists h, cas_response c (at_freq f fs) h /\
       Cnorm2 h = cheb1_mag n r (tan (PI * (f / fs)) / tan (PI * (fc / fs)))) /\
    cas_response c at_dc (RtoC (gain1 n r)) /\ cas_response c at_nyquist C0.
Proof.
  intros Hn HV Hr HC.
  destruct (pass_low checks cap n _ _ (gain1 n r) fc fs (ok_c1 n _ (v1_pos n r ltac:(lia) Hr)) (c1_inf n _) (mk_count _ _ _ _ n) Hn HV)
    as [c [E [B [F [D N]]]]].
  exists c. split; [|split; [exact B|split; [|split; auto]]].
  - unfold cheby1_lowpass. rewrite rdiv_ok by (destruct HV; lra). cbn [bind]. rewrite cheby1_analog_ok by (auto; lia). exact E.
  - intros f F1 F2. destruct (F f F1 F2) as [h [Hh Hm]]. exists h. split; auto. rewrite Hm. apply c1_mag; [lia|auto].
Qed.
Lemma cheb1_mag_opp n r x : cheb1_mag n r (- x) = cheb1_mag n r x.
Proof. unfold cheb1_mag. rewrite cheb_opp_sq. reflexivity. Qed.
Lemma cheby1_high_lemma checks cap n fs fc r : (1 <= n <= cap)%nat -> valid_freq fc fs -> 0 < r -> checks = false \/ Nat.odd n = false ->
  exists c, cheby1_highpass checks cap n fs fc r = Ok c /\ built cap n c /\
    (forall f, 0 < f -> 2 * f <= fs -> exists h, cas_response c (at_freq f fs) h /\
       Cnorm2 h = cheb1_mag n r (tan (PI * (fc / fs)) * (cos (PI * (f / fs)) / sin (PI * (f / fs))))) /\
    cas_response c at_nyquist (RtoC (if Nat.odd n then -1 else pow10 (- r / 20))) /\ cas_response c at_dc C0.
Proof.
  intros Hn HV Hr HC.
  destruct (pass_high checks cap n _ _ (gain1 n r) fc fs (ok_c1 n _ (v1_pos n r ltac:(lia) Hr)) (c1_inf n _) (mk_count _ _ _ _ n) Hn HV)
    as [c [E [B [F [D N]]]]].
  exists c. split; [|split; [exact B|split; [|split; auto]]].
  - unfold cheby1_highpass. rewrite rdiv_ok by (destruct HV; lra). cbn [bind]. rewrite cheby1_analog_ok by (auto; lia). exact E.
  - intros f F1 F2. destruct (F f F1 F2) as [h [Hh Hm]]. exists h. split; auto. rewrite Hm, c1_mag by (auto; lia). apply cheb1_mag_opp.
  - unfold gain1, c1_odd, mk_odd in D. destruct (Nat.odd n); cbn [osign] in D.
    + replace (1 * -1) with (-1) in D by ring. exact D.
    + rewrite Rmult_1_r in D. exact D.
Qed.
