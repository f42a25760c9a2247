From Coq Require Import Psatz Lia List.
From Verif Require Import RealBase RealBaseProofs BaseProofs Cplx CplxProofs PolyProofs BiquadModel BiquadSpec BiquadProofs.
From Verif Require Import StabilityProofs CascadeProofs DesignModel DesignSpec DesignProofs DesignProofs2 LayoutModel LayoutProofs BilinearProofs ButterProofs ButterShelfProofs.
From Verif Require Import ChebySpec ChebyProofs ChebyModel ChebyDesign.
Import ListNotations.
Local Open Scope R_scope.

Definition cs_pairs (n : nat) (u v : R) := mk_pairs (fun i => Cconj (ch_pole n u i)) (fun i => Fin (Cconj (ch_pole n v i))) n.
Definition cs_odd (n : nat) (u v : R) := mk_odd (- sinh u) (Fin (RtoC (- sinh v))) n.

Lemma ok_cs n u v : 0 < u -> 0 < v -> ok_design (cs_pairs n u v) (cs_odd n u v).
Proof.
  intros Hu Hv s f Hs Hf. pose proof (sinh_pos u Hu) as SU. pose proof (sinh_pos v Hv) as SV. pose proof (cosh_pos v) as CV. constructor; auto.
  - intros cz HI. apply in_map_iff in HI. destruct HI as [i [<- HI]]. apply in_seq in HI.
    destruct (thetak_sc n i ltac:(lia)) as [Sp Cp]. cbn [fst snd]. unfold ch_pole, cc; simpl.
    assert (0 < sinh u * sin (thetak n i)) by (apply Rmult_lt_0_compat; auto).
    assert (0 < sinh v * sin (thetak n i)) by (apply Rmult_lt_0_compat; auto).
    assert (0 < cosh u * cos (thetak n i)) by (apply Rmult_lt_0_compat; [apply cosh_pos|auto]).
    split; [nra|split; [nra|right; intros EI; nra]].
  - intros cz HO. unfold cs_odd, mk_odd in HO. destruct (Nat.odd n); [|discriminate]. injection HO as <-. simpl. split; [lra|].
    split; [lra|]. intros c E; injection E as <-. reflexivity.
Qed.
Lemma cs_fin n u v : 0 < v -> all_fin (flat (cs_pairs n u v) (cs_odd n u v)).
Proof.
  intros Hv cz HI. pose proof (sinh_pos v Hv) as SV. apply in_flat_mk in HI. destruct HI as [[i [Hi [->| ->]]]|[_ ->]]; cbn [snd econj]; eexists; (split; [reflexivity|]).
  - destruct (thetak_sc n i Hi) as [Sp Cp]. unfold ch_pole, cc; simpl. assert (0 < sinh v * sin (thetak n i)) by (apply Rmult_lt_0_compat; auto). lra.
  - destruct (thetak_sc n i Hi) as [Sp Cp]. unfold ch_pole, cc; simpl. assert (0 < sinh v * sin (thetak n i)) by (apply Rmult_lt_0_compat; auto). lra.
  - simpl. lra.
Qed.
Lemma cs_odd_real n u v : 0 < v -> forall cz, cs_odd n u v = Some cz -> exists z, snd cz = Fin (RtoC z) /\ z < 0.
Proof.
  intros Hv cz E. pose proof (sinh_pos v Hv). unfold cs_odd, mk_odd in E. destruct (Nat.odd n); [|discriminate]. injection E as <-.
  eexists; split; [reflexivity|lra].
Qed.
Lemma cs_product n u v x : (0 < n)%nat -> 0 < u ->
  rprod (map (afac x) (flat (cs_pairs n u v) (cs_odd n u v))) =
  (cheb n x * cheb n x + sinh (INR n * v) * sinh (INR n * v)) / (cheb n x * cheb n x + sinh (INR n * u) * sinh (INR n * u)).
Proof.
  intros Hn Hu. pose proof (sinh_pos u Hu) as SP. rewrite <- ch_quotient by (auto; lra).
  apply mk_product; auto.
  - intros i Hi. pose proof (half_le n i Hi) as Hn'. unfold afac. cbn [fst snd econj]. rewrite !Cconj_invol.
    rewrite !ch_dist, !ch_dist_conj by auto. ring.
  - intros O. unfold afac. cbn [fst snd]. rewrite !(ch_dist_mid n) by auto. reflexivity.
Qed.

(** The code's [u] and [v] *)
Lemma log_arcsinh n b x : (0 < n)%nat -> b = x + sqrt (x ^ 2 + 1) -> 0 < b /\ ln (Rpower b (1 / INR n)) = arcsinh x / INR n.
Proof.
  intros Hn ->. split.
  - assert (X : Rabs x < sqrt (x ^ 2 + 1)).
    { rewrite <- sqrt_Rsqr_abs. apply sqrt_lt_1; unfold Rsqr; nra. }
    pose proof (Rle_abs (- x)). rewrite Rabs_Ropp in H. lra.
  - unfold Rpower. rewrite ln_exp. unfold arcsinh. field. apply INR_neq0; lia.
Qed.

Definition shelf_u (n : nat) (G eps : R) := arcsinh (G / eps) / INR n.
Definition shelf_v (n : nat) (eps : R) := arcsinh (1 / eps) / INR n.

Lemma cheby_shelf_core checks cap n gain ripple eps u b :
  let g := - gain in let G := pow10 (g / 20) in let Gb := pow10 ((g - clamp_ripple g ripple) / 20) in
  (0 < n <= cap)%nat -> eps <> 0 ->
  (if Req_EM_T Gb 1 then Ok (G - 1) else bind (rdiv (G * G - Gb * Gb) (Gb * Gb - 1 * 1)) rsqrt) = Ok eps ->
  b = G / eps + Gb * sqrt (1 + 1 / (eps * eps)) -> 0 < b -> u = ln b / INR n ->
  cheby_shelf_analog checks (lay_new cap) n gain ripple = Ok (analog cap (cs_pairs n u (shelf_v n eps)) (cs_odd n u (shelf_v n eps)) PI 1).
Proof.
  intros g G Gb Hn He Heq Hb Pb Hu. unfold cheby_shelf_analog. change (length (pairs (lay_new cap))) with (length (repeat pz_default cap)). rewrite repeat_length.
  destruct (Nat.ltb_spec cap n); [lia|]. cbv zeta. fold g. fold G. fold Gb.
  transitivity (bind (Ok eps) (fun eps =>
  ie2 <- rdiv 1 (eps * eps) ;;
  exponent <- rsqrt (1 + ie2) ;;
  in_ <- rdiv 1 (INR n) ;;
  g0 <- rpow 1 in_ ;;
  q <- rdiv G eps ;;
  b <- rpow (q + Gb * exponent) in_ ;;
  bg <- rdiv b g0 ;;
  u <- rlog bg ;;
  ie <- rdiv 1 eps ;;
  w <- rpow (ie + exponent) in_ ;;
  v <- rlog w ;;
  l1 <- cheby_shelf_pairs (INR (2 * n)) (sinh u) (cosh u) (sinh v) (cosh v) 1 (n / 2) (lay_reset (lay_set_gain (lay_set_w (lay_new cap) PI) 1)) ;;
  (if Nat.odd n then lay_insert checks l1 (cmk (- sinh u) 0) (Fin (cmk (- sinh v) 0)) else Ok l1)))%res.
  { rewrite <- Heq. reflexivity. }
  cbn [bind]. assert (EE : 0 < eps * eps) by (apply Rsqr_pos_lt; auto). rewrite rdiv_ok by lra. cbn [bind].
  assert (E2 : 0 < 1 / (eps * eps)) by (apply div_pos; lra).
  rewrite rsqrt_ok by lra. cbn [bind]. assert (HN : INR n <> 0) by (apply INR_neq0; lia). rewrite rdiv_ok by auto. cbn [bind].
  unfold rpow at 1. destruct (Rlt_dec 0 1) as [_|N]; [|lra]. cbn [bind]. rewrite rdiv_ok by lra. cbn [bind].
  rewrite <- Hb. unfold rpow at 1. destruct (Rlt_dec 0 b) as [_|N]; [|lra]. cbn [bind].
  replace (Rpower 1 (1 / INR n)) with 1 by (unfold Rpower; rewrite ln_1, Rmult_0_r, exp_0; reflexivity).
  rewrite rdiv_ok by lra. cbn [bind]. unfold Rdiv at 1. rewrite Rinv_1, Rmult_1_r.
  rewrite rlog_ok by apply exp_pos. cbn [bind].
  replace (ln (Rpower b (1 / INR n))) with u by (unfold Rpower; rewrite ln_exp, Hu; field; auto).
  rewrite rdiv_ok by lra. cbn [bind].
  destruct (log_arcsinh n (1 / eps + sqrt (1 + 1 / (eps * eps))) (1 / eps) ltac:(lia)) as [W1 W2].
  { f_equal. f_equal. field. lra. }
  unfold rpow at 1. destruct (Rlt_dec 0 (1 / eps + sqrt (1 + 1 / (eps * eps)))) as [_|N]; [|lra]. cbn [bind].
  rewrite rlog_ok by apply exp_pos. cbn [bind]. rewrite W2. fold (shelf_v n eps). set (v := shelf_v n eps).
  replace (lay_reset (lay_set_gain (lay_set_w (lay_new cap) PI) 1)) with (lay_of cap [] 0 PI 1).
  2:{ unfold lay_of, lay_reset, lay_new, lay_set_gain, lay_set_w; cbn [length app pairs lay_w lay_gain]. rewrite Nat.sub_0_r; reflexivity. }
  rewrite (fill_ok (cheby_shelf_pairs (INR (2 * n)) (sinh u) (cosh u) (sinh v) (cosh v)) (fun i => Cconj (ch_pole n u i)) (fun i => Fin (Cconj (ch_pole n v i))) 1).
  - cbn [bind]. fold (cs_pairs n u v). change (cmk (- sinh u) 0) with (RtoC (- sinh u)). change (cmk (- sinh v) 0) with (RtoC (- sinh v)).
    destruct (Nat.odd n) eqn:Eo.
    + apply odd_analog; auto. right. unfold imag_is_zero. cbn [Im RtoC snd]. destruct (Req_EM_T 0 0); [reflexivity|congruence].
    + f_equal. apply even_analog. auto.
  - reflexivity.
  - intros i m l Hi. cbn [cheby_shelf_pairs]. rewrite rdiv_ok by (apply INR_neq0; lia). cbn [bind].
    replace (PI * (2 * INR (1 + i) - 1) / INR (2 * n)) with (thetak n i).
    2:{ unfold thetak. rewrite plus_INR. simpl (INR 1). field. apply INR_neq0; lia. }
    assert (EP : forall t, cmk (- sin (thetak n i) * sinh t) (cos (thetak n i) * cosh t) = Cconj (ch_pole n t i)).
    { intros t. unfold cmk, ch_pole, cc. apply C_eq; simpl; ring. }
    rewrite !EP. reflexivity.
  - lia.
Qed.

(** ripple strictly between 0 and |gain| *)
Definition sgn_ripple (gain ripple : R) : R := if Rlt_dec 0 gain then - ripple else ripple.
Definition edge2 (gain ripple : R) : R := Rpower 10 ((- gain - sgn_ripple gain ripple) / 10).
Definition full2 (gain : R) : R := Rpower 10 (- gain / 10).
Definition shelf_eps2 (gain ripple : R) : R := (full2 gain - edge2 gain ripple) / (edge2 gain ripple - 1).
Definition cheb_shelf_mag (n : nat) (gain ripple x : R) : R :=
  (1 + shelf_eps2 gain ripple * (cheb n x * cheb n x)) / (full2 gain + shelf_eps2 gain ripple * (cheb n x * cheb n x)).

Lemma sq10 x : pow10 (x / 20) * pow10 (x / 20) = Rpower 10 (x / 10).
Proof. unfold pow10. rewrite <- Rpower_plus. f_equal. field. Qed.
Lemma pow10_mono x y : x < y -> Rpower 10 x < Rpower 10 y.
Proof. intros. apply Rpower_lt; lra. Qed.
Lemma clamp_free gain ripple : 0 < ripple < Rabs gain -> clamp_ripple (- gain) ripple = sgn_ripple gain ripple.
Proof.
  intros Hr. unfold clamp_ripple, sgn_ripple. rewrite Rabs_Ropp. destruct (Rle_dec (Rabs gain) ripple); [lra|].
  destruct (Rlt_dec (- gain) 0), (Rlt_dec 0 gain); lra.
Qed.
Lemma shelf_order gain ripple : 0 < ripple < Rabs gain ->
  (1 < edge2 gain ripple /\ edge2 gain ripple < full2 gain) \/ (edge2 gain ripple < 1 /\ full2 gain < edge2 gain ripple).
Proof.
  intros Hr. unfold edge2, full2, sgn_ripple. pose proof (Rpower_O 10 ltac:(lra)) as P0. unfold Rabs in Hr. destruct (Rlt_dec 0 gain), (Rcase_abs gain); try lra.
  - right. split; [rewrite <- P0|]; apply pow10_mono; lra.
  - left. split; [rewrite <- P0|]; apply pow10_mono; lra.
Qed.
Lemma shelf_eps2_pos gain ripple : 0 < ripple < Rabs gain -> 0 < shelf_eps2 gain ripple.
Proof.
  intros Hr. unfold shelf_eps2. destruct (shelf_order gain ripple Hr) as [[A B]|[A B]].
  - apply div_pos; lra.
  - replace ((full2 gain - edge2 gain ripple) / (edge2 gain ripple - 1)) with ((edge2 gain ripple - full2 gain) / (1 - edge2 gain ripple)) by (field; lra). apply div_pos; lra.
Qed.

Lemma cheby_shelf_ok checks cap n gain ripple : (0 < n <= cap)%nat -> 0 < ripple < Rabs gain ->
  exists eps, 0 < eps /\ eps * eps = shelf_eps2 gain ripple /\
  cheby_shelf_analog checks (lay_new cap) n gain ripple =
    Ok (analog cap (cs_pairs n (shelf_u n (pow10 (- gain / 20)) eps) (shelf_v n eps)) (cs_odd n (shelf_u n (pow10 (- gain / 20)) eps) (shelf_v n eps)) PI 1).
Proof.
  intros Hn Hr. pose proof (shelf_eps2_pos gain ripple Hr) as EP. pose proof (shelf_order gain ripple Hr) as SO.
  exists (sqrt (shelf_eps2 gain ripple)). assert (E0 : 0 < sqrt (shelf_eps2 gain ripple)) by (apply sqrt_lt_R0; auto).
  assert (E1 : sqrt (shelf_eps2 gain ripple) * sqrt (shelf_eps2 gain ripple) = shelf_eps2 gain ripple) by (apply sqrt_sqrt; lra).
  split; [exact E0|split; [exact E1|]].
  set (eps := sqrt (shelf_eps2 gain ripple)) in *.
  assert (GG : pow10 (- gain / 20) * pow10 (- gain / 20) = full2 gain) by apply sq10.
  assert (BB : pow10 ((- gain - sgn_ripple gain ripple) / 20) * pow10 ((- gain - sgn_ripple gain ripple) / 20) = edge2 gain ripple) by apply sq10.
  assert (PG : 0 < pow10 (- gain / 20)) by apply exp_pos. assert (PB : 0 < pow10 ((- gain - sgn_ripple gain ripple) / 20)) by apply exp_pos.
  set (G := pow10 (- gain / 20)) in *. set (Gb := pow10 ((- gain - sgn_ripple gain ripple) / 20)) in *.
  assert (BI : G / eps + Gb * sqrt (1 + 1 / (eps * eps)) = G / eps + sqrt ((G / eps) ^ 2 + 1)).
  { f_equal. assert (PE : 0 < eps * eps) by nra. assert (0 < 1 / (eps * eps)) by (apply div_pos; lra).
    rewrite <- (sqrt_square Gb) at 1 by lra. rewrite <- sqrt_mult by nra. f_equal.
    replace ((G / eps) ^ 2 + 1) with ((G * G + eps * eps) / (eps * eps)) by (field; lra).
    replace (Gb * Gb * (1 + 1 / (eps * eps))) with ((Gb * Gb * (eps * eps) + Gb * Gb) / (eps * eps)) by (field; lra).
    f_equal. rewrite GG, BB, E1. unfold shelf_eps2. field. lra. }
  destruct (log_arcsinh n _ (G / eps) ltac:(lia) eq_refl) as [PB1 PB2].
  apply cheby_shelf_core with (b := G / eps + Gb * sqrt (1 + 1 / (eps * eps))); auto; try (apply Rgt_not_eq; exact E0).
  - rewrite clamp_free by auto. fold G. fold Gb. destruct (Req_EM_T Gb 1) as [E|_]; [rewrite E in BB; lra|].
    rewrite rdiv_ok by lra. cbn [bind]. rewrite Rmult_1_l, GG, BB. fold (shelf_eps2 gain ripple). apply rsqrt_ok. lra.
  - rewrite clamp_free by auto. reflexivity.
  - rewrite BI. exact PB1.
  - unfold shelf_u, arcsinh. rewrite BI. reflexivity.
Qed.

Lemma shelf_sinh n x : (0 < n)%nat -> sinh (INR n * (arcsinh x / INR n)) = x.
Proof. intros Hn. replace (INR n * (arcsinh x / INR n)) with (arcsinh x) by (field; apply INR_neq0; lia). apply sinh_arcsinh. Qed.
Lemma shelf_uv_pos n a : (0 < n)%nat -> 0 < a -> 0 < arcsinh a / INR n.
Proof. intros Hn Ha. apply div_pos; [apply arcsinh_pos; auto|apply lt_0_INR; auto]. Qed.
Lemma cs_mag n gain ripple eps x : (0 < n)%nat -> 0 < eps -> eps * eps = shelf_eps2 gain ripple ->
  rprod (map (afac x) (flat (cs_pairs n (shelf_u n (pow10 (- gain / 20)) eps) (shelf_v n eps)) (cs_odd n (shelf_u n (pow10 (- gain / 20)) eps) (shelf_v n eps)))) =
  cheb_shelf_mag n gain ripple x.
Proof.
  intros Hn He E2. assert (PG : 0 < pow10 (- gain / 20)) by apply exp_pos.
  rewrite cs_product by (auto; apply shelf_uv_pos; auto; apply div_pos; auto).
  unfold shelf_u, shelf_v. rewrite !shelf_sinh by auto. unfold cheb_shelf_mag. rewrite <- E2.
  replace (full2 gain) with (pow10 (- gain / 20) * pow10 (- gain / 20)) by apply sq10.
  set (G := pow10 (- gain / 20)) in *. set (t := cheb n x). clearbody t.
  assert (0 <= t * t) by apply Rle_0_sqr. assert (0 < G * G) by nra. assert (0 < eps * eps) by nra.
  field. repeat split; nra.
Qed.

Lemma cheby_lowshelf_lemma checks cap n fs fc gain ripple : (1 <= n <= cap)%nat -> valid_freq fc fs -> 0 < ripple < Rabs gain ->
  exists c, cheby_lowshelf checks cap n fs fc gain ripple = Ok c /\ built cap n c /\
    (forall f, 0 <= f -> 2 * f < fs -> exists h, cas_response c (at_freq f fs) h /\
       Cnorm2 h = cheb_shelf_mag n gain ripple (tan (PI * (f / fs)) / tan (PI * (fc / fs)))) /\
    cas_response c at_nyquist (RtoC (if Nat.odd n then -1 else 1)).
Proof.
  intros Hn HV Hr. destruct (cheby_shelf_ok checks cap n gain ripple ltac:(lia) Hr) as [eps [He [E2 EA]]].
  assert (PG : 0 < pow10 (- gain / 20)) by apply exp_pos.
  assert (UP : 0 < shelf_u n (pow10 (- gain / 20)) eps) by (apply shelf_uv_pos; [lia|apply div_pos; auto]).
  assert (VP : 0 < shelf_v n eps) by (apply shelf_uv_pos; [lia|apply div_pos; lra]).
  destruct (shelf_low checks cap n _ _ 1 fc fs (ok_cs n _ _ UP VP) (cs_fin n _ _ VP) (cs_odd_real n _ _ VP) (mk_count _ _ _ _ n) Hn HV)
    as [c [E [B [F N]]]].
  exists c. split; [|split; [exact B|split]].
  - unfold cheby_lowshelf. rewrite rdiv_ok by (destruct HV; lra). cbn [bind]. rewrite EA. exact E.
  - intros f F1 F2. destruct (F f F1 F2) as [h [Hh Hm]]. exists h. split; auto. rewrite Hm, (cs_mag n gain ripple) by (auto; lia). ring.
  - rewrite Rmult_1_l in N. unfold cs_odd, mk_odd in N. destruct (Nat.odd n); exact N.
Qed.
Lemma cheb_shelf_opp n gain ripple x : cheb_shelf_mag n gain ripple (- x) = cheb_shelf_mag n gain ripple x.
Proof. unfold cheb_shelf_mag. rewrite cheb_opp_sq. reflexivity. Qed.
Lemma cheby_highshelf_lemma checks cap n fs fc gain ripple : (1 <= n <= cap)%nat -> valid_freq fc fs -> 0 < ripple < Rabs gain ->
  exists c, cheby_highshelf checks cap n fs fc gain ripple = Ok c /\ built cap n c /\
    (forall f, 0 < f -> 2 * f <= fs -> exists h, cas_response c (at_freq f fs) h /\
       Cnorm2 h = cheb_shelf_mag n gain ripple (tan (PI * (fc / fs)) * (cos (PI * (f / fs)) / sin (PI * (f / fs))))) /\
    cas_response c at_dc C1.
Proof.
  intros Hn HV Hr. destruct (cheby_shelf_ok checks cap n gain ripple ltac:(lia) Hr) as [eps [He [E2 EA]]].
  assert (PG : 0 < pow10 (- gain / 20)) by apply exp_pos.
  assert (UP : 0 < shelf_u n (pow10 (- gain / 20)) eps) by (apply shelf_uv_pos; [lia|apply div_pos; auto]).
  assert (VP : 0 < shelf_v n eps) by (apply shelf_uv_pos; [lia|apply div_pos; lra]).
  destruct (shelf_high checks cap n _ _ 1 fc fs (ok_cs n _ _ UP VP) (cs_fin n _ _ VP) (cs_odd_real n _ _ VP) (mk_count _ _ _ _ n) Hn HV)
    as [c [E [B [F N]]]].
  exists c. split; [|split; [exact B|split; [|exact N]]].
  - unfold cheby_highshelf. rewrite rdiv_ok by (destruct HV; lra). cbn [bind]. rewrite EA. exact E.
  - intros f F1 F2. destruct (F f F1 F2) as [h [Hh Hm]]. exists h. split; auto. rewrite Hm, (cs_mag n gain ripple) by (auto; lia).
    rewrite cheb_shelf_opp. ring.
Qed.

(** a zero gain, or a ripple that is not positive, has no finite design *)
Lemma cheby_shelf_bad checks cap n gain ripple : (0 < n <= cap)%nat -> gain = 0 \/ ripple <= 0 ->
  cheby_shelf_analog checks (lay_new cap) n gain ripple = NonFinite.
Proof.
  intros Hn Hr. unfold cheby_shelf_analog. change (length (pairs (lay_new cap))) with (length (repeat pz_default cap)). rewrite repeat_length.
  destruct (Nat.ltb_spec cap n); [lia|]. cbv zeta. pose proof (Rpower_O 10 ltac:(lra)) as P0.
  assert (D : (if Req_EM_T (pow10 ((- gain - clamp_ripple (- gain) ripple) / 20)) 1 then Ok (pow10 (- gain / 20) - 1) else
     bind (rdiv (pow10 (- gain / 20) * pow10 (- gain / 20) - pow10 ((- gain - clamp_ripple (- gain) ripple) / 20) * pow10 ((- gain - clamp_ripple (- gain) ripple) / 20))
       (pow10 ((- gain - clamp_ripple (- gain) ripple) / 20) * pow10 ((- gain - clamp_ripple (- gain) ripple) / 20) - 1 * 1)) (fun x => rsqrt x)) = Ok 0 \/
     (if Req_EM_T (pow10 ((- gain - clamp_ripple (- gain) ripple) / 20)) 1 then Ok (pow10 (- gain / 20) - 1) else
     bind (rdiv (pow10 (- gain / 20) * pow10 (- gain / 20) - pow10 ((- gain - clamp_ripple (- gain) ripple) / 20) * pow10 ((- gain - clamp_ripple (- gain) ripple) / 20))
       (pow10 ((- gain - clamp_ripple (- gain) ripple) / 20) * pow10 ((- gain - clamp_ripple (- gain) ripple) / 20) - 1 * 1)) (fun x => rsqrt x)) = NonFinite).
  { rewrite !sq10, Rmult_1_l. unfold pow10.
    assert (INJ : forall x, Rpower 10 x = 1 -> x = 0).
    { intros x Ex. destruct (Rtotal_order x 0) as [L|[E|L]]; auto; apply pow10_mono in L; rewrite P0 in L; lra. }
    assert (Q0 : Rpower 10 (- 0 / 20) = 1) by (replace (- 0 / 20) with 0 by field; auto).
    destruct (Req_EM_T (Rpower 10 ((- gain - clamp_ripple (- gain) ripple) / 20)) 1) as [E|E].
    - left. f_equal. apply INJ in E. unfold clamp_ripple in E. rewrite Rabs_Ropp in E.
      assert (gain = 0).
      { destruct Hr as [Hr|Hr]; auto. destruct (Rle_dec (Rabs gain) ripple) as [L|L].
        - destruct (Req_dec gain 0) as [|N0]; auto. pose proof (Rabs_pos_lt _ N0). lra.
        - destruct (Rlt_dec (- gain) 0); lra. }
      subst. rewrite Q0. ring.
    - assert (NZ : - gain - clamp_ripple (- gain) ripple <> 0).
      { intros X. apply E. rewrite X. replace (0 / 20) with 0 by field. auto. }
      assert (NE : Rpower 10 ((- gain - clamp_ripple (- gain) ripple) / 10) - 1 <> 0).
      { intros X. apply NZ. assert (Y : (- gain - clamp_ripple (- gain) ripple) / 10 = 0) by (apply INJ; lra). lra. }
      rewrite rdiv_ok by auto. cbn [bind]. revert NZ NE. unfold clamp_ripple. rewrite Rabs_Ropp.
      assert (SG : forall a b, b - 1 <> 0 -> (b < 1 /\ b < a) \/ (1 < b /\ a < b) -> rsqrt ((a - b) / (b - 1)) = NonFinite).
      { intros a b Nb H0. unfold rsqrt. destruct (Rlt_dec _ 0) as [|N]; auto. exfalso. apply N. destruct H0 as [[X Y]|[X Y]].
        - assert (0 < (a - b) / (1 - b)) by (apply div_pos; lra). replace ((a - b) / (b - 1)) with (- ((a - b) / (1 - b))) by (field; lra). lra.
        - assert (0 < (b - a) / (b - 1)) by (apply div_pos; lra). replace ((a - b) / (b - 1)) with (- ((b - a) / (b - 1))) by (field; lra). lra. }
      destruct (Rle_dec (Rabs gain) ripple) as [L|L].
      + assert (G0 : gain = 0) by (destruct Hr as [Hr|Hr]; auto; pose proof (Rabs_pos gain); destruct (Req_dec gain 0) as [|N0]; auto; pose proof (Rabs_pos_lt _ N0); lra).
        subst. rewrite Rabs_R0. destruct (Rlt_dec (- 0) 0); lra.
      + destruct (Rlt_dec (- gain) 0) as [LT|LT]; intros NZ NE.
        * assert (RP : ripple <= 0) by (destruct Hr; lra). destruct (Req_dec ripple 0) as [-> |R0].
          -- left. replace (- gain - - 0) with (- gain) by ring. unfold Rdiv at 1. rewrite Rminus_eq_0, Rmult_0_l. rewrite rsqrt_ok by lra. rewrite sqrt_0. reflexivity.
          -- right. apply SG; auto. left. split; [rewrite <- P0|]; apply pow10_mono; lra.
        * destruct (Req_dec ripple 0) as [-> |R0].
          -- left. rewrite Rminus_0_r. unfold Rdiv at 1. rewrite Rminus_eq_0, Rmult_0_l. rewrite rsqrt_ok by lra. rewrite sqrt_0. reflexivity.
          -- assert (RP : ripple < 0).
             { destruct Hr as [->|Hr]; [|lra]. rewrite Rabs_R0 in L. lra. }
             right. apply SG; auto. right. split; [rewrite <- P0|]; apply pow10_mono; lra. }
  destruct D as [D|D]; rewrite D; cbn [bind]; [|reflexivity]. rewrite Rmult_0_l, rdiv_zero. reflexivity.
Qed.

(** ** Ripple at or above the gain, cut: the clamped design *)
Definition clamp_b (G : R) : R := G / (G - 1) + sqrt (1 + 1 / ((G - 1) * (G - 1))).
Lemma clamp_sinh G : 1 < G -> 1 < clamp_b G /\ forall n, (0 < n)%nat ->
   0 < (G - 1) * sinh (INR n * (ln (clamp_b G) / INR n)) < G.
Proof.
  intros HG. set (e := G - 1). assert (He : 0 < e) by (unfold e; lra).
  assert (Q : sqrt (1 + 1 / (e * e)) = sqrt (1 + e * e) / e).
  { replace (1 + 1 / (e * e)) with ((1 + e * e) / (e * e)) by (field; lra). rewrite sqrt_div_alt by nra. rewrite sqrt_square by lra. reflexivity. }
  assert (S2 : sqrt (1 + e * e) * sqrt (1 + e * e) = 1 + e * e) by (apply sqrt_sqrt; nra).
  assert (SP : 0 < sqrt (1 + e * e)) by (apply sqrt_lt_R0; nra).
  assert (SG : sqrt (1 + e * e) < G) by (unfold e in *; nra). 
  assert (B1 : clamp_b G = (G + sqrt (1 + e * e)) / e) by (unfold clamp_b; fold e; rewrite Q; field; lra).
  assert (B : 1 < clamp_b G).
  { rewrite B1. apply (Rmult_lt_reg_r e); auto. unfold Rdiv. rewrite Rmult_assoc, Rinv_l by lra. unfold e in *. lra. }
  split; [exact B|]. intros n Hn.
  replace (INR n * (ln (clamp_b G) / INR n)) with (ln (clamp_b G)) by (field; apply INR_neq0; lia).
  assert (IB : / clamp_b G = (G - sqrt (1 + e * e)) / 2).
  { rewrite B1. set (s := sqrt (1 + e * e)) in *. clearbody s. apply (Rmult_eq_reg_l ((G + s) / e)); [|apply Rgt_not_eq, div_pos; lra].
    rewrite Rinv_r by (apply Rgt_not_eq, div_pos; lra). unfold e in *. apply (Rmult_eq_reg_r (2 * (G - 1))); [|lra].
    transitivity ((G + s) * (G - s)); [nra|field; lra]. }
  assert (SN : sinh (ln (clamp_b G)) = (clamp_b G - / clamp_b G) / 2).
  { unfold sinh. rewrite exp_Ropp, exp_ln by lra. reflexivity. }
  split.
  - apply Rmult_lt_0_compat; [exact He|]. apply sinh_pos. rewrite <- ln_1. apply ln_increasing; lra.
  - rewrite SN, IB, B1. set (s := sqrt (1 + e * e)) in *. clearbody s.
    replace (e * (((G + s) / e - (G - s) / 2) / 2)) with ((G + s) / 2 - e * (G - s) / 4) by (field; lra).
    assert (0 < e * (G - s)) by (apply Rmult_lt_0_compat; lra). lra.
Qed.

Lemma cheby_lowshelf_clamped checks cap n fs fc gain ripple : (1 <= n <= cap)%nat -> Nat.odd n = true -> valid_freq fc fs ->
  gain < 0 -> - gain <= ripple ->
  exists c h, cheby_lowshelf checks cap n fs fc gain ripple = Ok c /\ cas_response c at_dc h /\ Rpower 10 (gain / 10) < Cnorm2 h.
Proof.
  intros Hn HO HV Hg Hr.
  set (G := pow10 (- gain / 20)).
  assert (HG : 1 < G) by (apply pow10_gt1; lra).
  destruct (clamp_sinh G HG) as [B1 BS]. destruct (BS n ltac:(lia)) as [S1 S2]. clear BS.
  set (u := ln (clamp_b G) / INR n) in *. set (v := shelf_v n (G - 1)).
  assert (EA : cheby_shelf_analog checks (lay_new cap) n gain ripple = Ok (analog cap (cs_pairs n u v) (cs_odd n u v) PI 1)).
  { assert (CR : - gain - clamp_ripple (- gain) ripple = 0).
    { unfold clamp_ripple. rewrite Rabs_right by lra. destruct (Rle_dec (- gain) ripple); [|lra]. destruct (Rlt_dec (- gain) 0); lra. }
    assert (GB : pow10 ((- gain - clamp_ripple (- gain) ripple) / 20) = 1).
    { rewrite CR. replace (0 / 20) with 0 by field. apply Rpower_O. lra. }
    apply cheby_shelf_core with (b := clamp_b G); auto; try lra; try lia.
    - rewrite GB. destruct (Req_EM_T 1 1); [reflexivity|congruence].
    - rewrite GB. unfold clamp_b. fold G. ring. }
  assert (UP : 0 < u) by (apply div_pos; [rewrite <- ln_1; apply ln_increasing; lra|apply lt_0_INR; lia]).
  assert (VP : 0 < v) by (apply shelf_uv_pos; [lia|apply div_pos; lra]).
  destruct (shelf_low checks cap n _ _ 1 fc fs (ok_cs n _ _ UP VP) (cs_fin n _ _ VP) (cs_odd_real n _ _ VP) (mk_count _ _ _ _ n) Hn HV)
    as [c [E [B [F N]]]].
  destruct (F 0 ltac:(lra) ltac:(destruct HV; lra)) as [h [Hh Hm]].
  exists c, h. split; [|split].
  - unfold cheby_lowshelf. rewrite rdiv_ok by (destruct HV; lra). cbn [bind]. rewrite EA. exact E.
  - replace (at_freq 0 fs) with at_dc in Hh; [exact Hh|]. unfold at_freq, at_dc, Cexp. replace (2 * PI * 0 / fs) with 0 by (unfold Rdiv; ring). rewrite cos_0, sin_0. reflexivity.
  - rewrite Hm, cs_product by (auto; lia). replace (PI * (0 / fs)) with 0 by (unfold Rdiv; ring). rewrite tan_0.
    replace (0 / tan (PI * (fc / fs))) with 0 by (unfold Rdiv; ring). rewrite cheb_at_0, HO. unfold v, shelf_v. rewrite shelf_sinh by lia.
    set (q := sinh (INR n * u)) in *. rewrite !Rplus_0_l, !Rmult_1_l.
    assert (0 < q) by (apply (Rmult_lt_reg_l (G - 1)); lra).
    replace (1 / (G - 1) * (1 / (G - 1)) / (q * q)) with (/ (((G - 1) * q) * ((G - 1) * q))) by (field; lra).
    replace (Rpower 10 (gain / 10)) with (/ (G * G)).
    + set (w := (G - 1) * q) in *. clearbody w. assert (0 < w * w) by (apply Rmult_lt_0_compat; lra). assert (0 < G * G) by (apply Rmult_lt_0_compat; lra).
      apply Rinv_lt_contravar; [apply Rmult_lt_0_compat; auto|nra].
    + unfold G. rewrite sq10, <- Rpower_Ropp. f_equal. field.
Qed.
