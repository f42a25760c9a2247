From Coq Require Import Psatz Lia List.
From Verif Require Import RealBase RealBaseProofs BaseProofs Cplx CplxProofs PolyProofs BiquadModel BiquadSpec BiquadProofs.
From Verif Require Import StabilityProofs CascadeProofs DesignModel DesignSpec DesignProofs DesignProofs2 LayoutModel LayoutProofs BilinearProofs ButterProofs ButterShelfProofs.
From Verif Require Import ChebySpec ChebyProofs ChebyModel ChebyDesign.
Import ListNotations.
Local Open Scope R_scope.

(** ** Zeros on the imaginary axis, unit gain at z = s *)
Definition mixed (l : list (C * ecomplex)) : Prop := forall cz, In cz l -> match snd cz with Inf => True | Fin z => Re z <= 0 /\ z <> C0 end.
(** squared magnitude relative to the reference, at analogue frequency 1/y *)
Definition ifac (y : R) (cz : C * ecomplex) : R :=
  match snd cz with
  | Inf => y * y * Cnorm2 (fst cz) / Cnorm2 (Ci - RtoC y * fst cz)%C
  | Fin z => (Cnorm2 (Ci - RtoC y * z)%C / Cnorm2 z) / (Cnorm2 (Ci - RtoC y * fst cz)%C / Cnorm2 (fst cz))
  end.

Lemma iy_pos y c : Re c < 0 -> 0 < Cnorm2 (Ci - RtoC y * c)%C.
Proof.
  intros Hc. apply C_neq0. intros E. pose proof (f_equal Re E) as E1. pose proof (f_equal Im E) as E2. simpl in E1, E2.
  assert (y = 0 \/ Re c = 0) by (apply Rmult_integral; lra). destruct H as [->|H]; lra.
Qed.
Lemma ifac_ok s f c zt z y : s = 1 \/ s = -1 -> 0 < f -> Re c < 0 -> (match zt with Inf => True | Fin d => Re d <= 0 /\ d <> C0 end) ->
  (RtoC y * (RtoC s * z - C1) = RtoC f * Ci * (RtoC s * z + C1))%C -> (RtoC s * z - C1)%C <> C0 ->
  fac (Tb s f) z (c, zt) = fac (Tb s f) (RtoC s) (c, zt) * ifac y (c, zt).
Proof.
  intros Hs Hf Hc Hzt Ez NZ. unfold fac, dist2. cbn [fst snd].
  assert (ss : s * s = 1) by (destruct Hs as [->| ->]; lra).
  assert (NS : forall a b, Cnorm2 (RtoC s * a - RtoC s * b)%C = Cnorm2 (a - b)%C).
  { intros a b. replace (RtoC s * a - RtoC s * b)%C with (RtoC s * (a - b))%C by ring. rewrite Cnorm2_mul, Cnorm2_RtoC, ss. ring. }
  assert (SS : (RtoC s * RtoC s)%C = C1) by (rewrite <- RtoC_mul, ss; reflexivity).
  set (z' := (RtoC s * z)%C) in *.
  assert (Z : z = (RtoC s * z')%C) by (unfold z'; transitivity ((RtoC s * RtoC s) * z)%C; [rewrite SS|]; ring).
  assert (CI : (Ci * Ci)%C = (- C1)%C) by (apply C_eq; simpl; ring).
  assert (D2 : forall d, Re d <= 0 -> Cnorm2 (z - Tb s f (Fin d))%C = Cnorm2 (z' - C1)%C * Cnorm2 (Ci - RtoC y * d)%C / Cnorm2 (C1 - RtoC f * d)%C).
  { intros d Hd. assert (OM : (C1 - RtoC f * d)%C <> C0) by (apply one_minus_neq; lra).
    rewrite Z. simpl. rewrite NS. rewrite <- Cnorm2_mul, <- Cnorm2_div by auto.
    transitivity (Cnorm2 (Ci * (z' - (C1 + RtoC f * d) / (C1 - RtoC f * d)))%C).
    - rewrite Cnorm2_mul. replace (Cnorm2 Ci) with 1 by (unfold Cnorm2; simpl; ring). ring.
    - f_equal. transitivity ((Ci * (z' - C1) - d * (RtoC f * Ci * (z' + C1))) / (C1 - RtoC f * d))%C; [field; auto|].
      rewrite <- Ez. field. auto. }
  assert (D4 : forall d, Re d <= 0 -> Cnorm2 (RtoC s - Tb s f (Fin d))%C = 4 * (f * f * Cnorm2 d) / Cnorm2 (C1 - RtoC f * d)%C).
  { intros d Hd. assert (OM : (C1 - RtoC f * d)%C <> C0) by (apply one_minus_neq; lra).
    replace (RtoC s) with (RtoC s * C1)%C at 1 by ring. simpl. rewrite NS.
    replace 4 with (Cnorm2 (RtoC 2)) by (rewrite Cnorm2_RtoC; ring).
    rewrite <- (Cnorm2_RtoC f), <- !Cnorm2_mul, <- Cnorm2_div by auto.
    transitivity (Cnorm2 (- (RtoC 2 * (RtoC f * d)) / (C1 - RtoC f * d))%C).
    - f_equal. replace (RtoC 2) with (C1 + C1)%C by (apply C_eq; simpl; ring). field. auto.
    - rewrite !Cnorm2_div by auto. f_equal. unfold Cnorm2; simpl; ring. }
  assert (OM : (C1 - RtoC f * c)%C <> C0) by (apply one_minus_neq; lra).
  pose proof (C_neq0 _ OM). pose proof (C_neq0 _ NZ). pose proof (iy_pos y c Hc).
  assert (0 < Cnorm2 c) by (apply C_neq0; intros E; rewrite E in Hc; simpl in Hc; lra).
  unfold ifac. cbn [fst snd]. destruct zt as [d|].
  - destruct Hzt as [Hd Nd]. rewrite !D2, !D4 by lra.
    assert (OD : (C1 - RtoC f * d)%C <> C0) by (apply one_minus_neq; lra).
    pose proof (C_neq0 _ OD). pose proof (C_neq0 _ Nd). field. repeat split; lra.
  - rewrite !D2, !D4 by lra.
    assert (D3 : Cnorm2 (RtoC s - Tb s f Inf)%C = 4) by (simpl; unfold Cnorm2; simpl; nra).
    assert (D1 : f * f * Cnorm2 (z - Tb s f Inf)%C = y * y * Cnorm2 (z' - C1)%C).
    { rewrite Z. replace (RtoC s * z' - Tb s f Inf)%C with (RtoC s * z' - RtoC s * (- C1))%C by (simpl; apply C_eq; simpl; ring).
      rewrite NS. rewrite <- (Cnorm2_RtoC y), <- Cnorm2_mul, Ez, !Cnorm2_mul, Cnorm2_RtoC.
      replace (z' - - C1)%C with (z' + C1)%C by ring. replace (Cnorm2 Ci) with 1 by (unfold Cnorm2; simpl; ring). ring. }
    rewrite D3. assert (D1' : Cnorm2 (z - Tb s f Inf)%C = y * y * Cnorm2 (z' - C1)%C / (f * f)) by (rewrite <- D1; field; lra).
    rewrite D1'. field. repeat split; lra.
Qed.

Lemma ref_not_zero s f l : s = 1 \/ s = -1 -> 0 < f -> mixed l -> forall cz, In cz l -> RtoC s <> Tb s f (snd cz).
Proof.
  intros Hs Hf M cz HI E. specialize (M cz HI). destruct (snd cz) as [d|]; simpl in E.
  - destruct M as [Hd Nd]. apply Nd. assert (OM : (C1 - RtoC f * d)%C <> C0) by (apply one_minus_neq; auto).
    assert (SS : (RtoC s * RtoC s)%C = C1) by (rewrite <- RtoC_mul; destruct Hs as [->| ->]; apply C_eq; simpl; ring).
    assert (E2 : (C1 = (C1 + RtoC f * d) / (C1 - RtoC f * d))%C).
    { rewrite <- SS at 1. rewrite E at 2. transitivity ((RtoC s * RtoC s) * ((C1 + RtoC f * d) / (C1 - RtoC f * d)))%C; [ring|]. rewrite SS. ring. }
    assert (E3 : (C1 - RtoC f * d = C1 + RtoC f * d)%C).
    { transitivity ((C1 + RtoC f * d) / (C1 - RtoC f * d) * (C1 - RtoC f * d))%C; [rewrite <- E2; ring|field; auto]. }
    pose proof (f_equal Re E3) as R1. pose proof (f_equal Im E3) as R2. simpl in R1, R2.
    assert (f * Re d = 0) by lra. assert (f * Im d = 0) by lra.
    assert (X1 : Re d = 0) by (destruct (Rmult_integral _ _ H); lra). assert (X2 : Im d = 0) by (destruct (Rmult_integral _ _ H0); lra).
    apply C_eq; auto.
  - injection E as E. destruct Hs; subst; lra.
Qed.

Lemma mixed_mag s f prs od w' g z y :
  design_ok s f prs od -> mixed (flat prs od) -> Cexp w' = RtoC s -> Cmod z = 1 ->
  (RtoC y * (RtoC s * z - C1) = RtoC f * Ci * (RtoC s * z + C1))%C -> (RtoC s * z - C1)%C <> C0 ->
  Cnorm2 (RtoC (g / Cmod (stages_of s f prs od (Cexp w'))) * stages_of s f prs od z)%C =
    g * g * rprod (map (ifac y) (flat prs od)).
Proof.
  intros OK AI Ew Hz Ez NZ.
  assert (HR : forall cz, In cz (flat prs od) -> Cexp w' <> Tb s f (snd cz)).
  { rewrite Ew. apply ref_not_zero; [apply (do_s _ _ _ _ OK)|apply (do_f _ _ _ _ OK)|auto]. }
  destruct (relative_mag s f prs od OK (cas_new 0) w' g z _ Hz HR eq_refl) as [E P].
  unfold stages_of. rewrite E. f_equal.
  rewrite (rprod_map_ext (fac (Tb s f) z) (fun cz => fac (Tb s f) (Cexp w') cz * ifac y cz)).
  - rewrite rprod_map_mult. field. lra.
  - intros [c zt] HI. rewrite Ew.
    apply ifac_ok; auto; [apply (do_s _ _ _ _ OK)|apply (do_f _ _ _ _ OK)| |exact (AI _ HI)].
    apply (proj1 (flat_re _ _ _ _ OK _ HI)).
Qed.

Definition odd_inf (od : option (R * ecomplex)) : Prop := forall cz, od = Some cz -> snd cz = Inf.
Lemma mixed_at_ref s f prs od : design_ok s f prs od -> mixed (flat prs od) -> odd_inf od ->
  exists m, 0 < m /\ stages_of s f prs od (RtoC s) = RtoC (m * osign od s).
Proof.
  intros OK AI OI. unfold stages_of. rewrite map_app, cprod_app.
  assert (A : exists m, 0 < m /\ cprod (map (fun p => H (mkb p) (RtoC s)) (map (dpair (Tb s f)) prs)) = RtoC m).
  { assert (HP : forall cz, In cz prs -> In cz prs) by auto. revert HP. generalize prs at 1 3. intros l HP. 
    induction l as [|cz l IH]; [exists 1; split; [lra|reflexivity]|].
    destruct IH as [m [Pm Em]]; [intros; apply HP; right; auto|].
    assert (HI : In cz prs) by (apply HP; left; auto).
    assert (HF : In cz (flat prs od)) by (apply in_or_app; left; apply in_flat_map; exists cz; split; [auto|left; auto]).
    assert (HF2 : In (cz_conj cz) (flat prs od)) by (apply in_or_app; left; apply in_flat_map; exists cz; split; [auto|right; left; auto]).
    cbn [map cprod]. unfold mkb at 1. rewrite (mkb_pair s f prs od OK cz HI), Em.
    pose proof (pole_in s f prs od OK cz HF) as Hst.
    rewrite pair_at_real by (auto; apply (do_s _ _ _ _ OK)). rewrite <- RtoC_mul. eexists. split; [|reflexivity].
    apply Rmult_lt_0_compat; auto. apply Rmult_lt_0_compat; [|apply Rinv_0_lt_compat]; apply C_neq0; intros E.
    - apply (ref_not_zero s f _ (do_s _ _ _ _ OK) (do_f _ _ _ _ OK) AI _ HF2). cbn [cz_conj snd].
      transitivity (RtoC s - (RtoC s - Tb s f (econj (snd cz))))%C; [rewrite E|]; ring.
    - assert (E2 : Tb s f (Fin (fst cz)) = RtoC s).
      { transitivity (RtoC s - (RtoC s - Tb s f (Fin (fst cz))))%C; [|rewrite E]; ring. }
      rewrite E2, Cmod_RtoC in Hst. destruct (do_s _ _ _ _ OK) as [X|X]; rewrite X in Hst; unfold Rabs in Hst; destruct (Rcase_abs _); lra. }
  destruct A as [m [Pm Em]]. rewrite Em.
  destruct od as [cz|] eqn:Eo.
  - cbn [olist map cprod osign]. unfold mkb. rewrite (mkb_single s f prs (Some cz) OK cz eq_refl).
    assert (HF : In (RtoC (fst cz), snd cz) (flat prs (Some cz))) by (apply in_or_app; right; left; auto).
    rewrite (OI cz eq_refl).
    pose proof (pole_in s f prs _ OK _ HF) as Hst. cbn [fst] in Hst.
    assert (EP : RtoC (Re (Tb s f (Fin (RtoC (fst cz))))) = Tb s f (Fin (RtoC (fst cz)))).
    { apply C_eq; auto. cbn [Im RtoC snd]. symmetry. apply (T_im s f). intros x Hx; injection Hx as <-. reflexivity. }
    rewrite <- EP, Cmod_RtoC in Hst. set (p := Re (Tb s f (Fin (RtoC (fst cz))))) in *. clearbody p.
    destruct (single_at_real p (Re (Tb s f Inf)) s Hst (do_s _ _ _ _ OK)) as [E P]. rewrite E.
    exists (m * (2 / (s * (s - p)))). split.
    + apply Rmult_lt_0_compat; auto. apply Rmult_lt_0_compat; [lra|apply Rinv_0_lt_compat; auto].
    + replace (RtoC m * (RtoC ((1 - Re (Tb s f Inf) * s) / (s - p)) * C1))%C with (RtoC (m * ((1 - Re (Tb s f Inf) * s) / (s - p)))) by (rewrite RtoC_mul; ring).
      f_equal. rewrite !Rmult_assoc. f_equal. simpl. destruct (do_s _ _ _ _ OK) as [X|X]; rewrite X in *; field; lra.
  - cbn [olist map cprod osign]. exists m. split; auto. rewrite Rmult_1_r. ring.
Qed.

(** the unit circle, measured from the far end *)
Lemma far_low t : 0 < t <= PI / 2 -> forall f, (RtoC (f * (cos t / sin t)) * (RtoC 1 * Cexp (2 * t) - C1) = RtoC f * Ci * (RtoC 1 * Cexp (2 * t) + C1))%C /\
   (RtoC 1 * Cexp (2 * t) - C1)%C <> C0.
Proof.
  intros Ht f. assert (SP : 0 < sin t) by (apply sin_gt_0; lra). unfold Cexp. rewrite cos_2a_cos, sin_2a.
  pose proof (sin2_cos2 t) as S. unfold Rsqr in S. set (x := cos t) in *. set (s := sin t) in *. clearbody x s. split.
  - assert (S' : x * x = 1 - s * s) by lra.
    apply C_eq; simpl.
    + transitivity (f * (2 * x * (x * x - 1)) / s); [field; lra|]. rewrite S'. field. lra.
    + field_simplify; [|lra]. replace (x ^ 2) with (x * x) by ring. nra.
  - intros E. injection E as E1 E2. assert (s * s = 0) by nra. nra.
Qed.
Lemma far_high t : 0 <= t < PI / 2 -> forall f, (RtoC (- (f * tan t)) * (RtoC (-1) * Cexp (2 * t) - C1) = RtoC f * Ci * (RtoC (-1) * Cexp (2 * t) + C1))%C /\
   (RtoC (-1) * Cexp (2 * t) - C1)%C <> C0.
Proof.
  intros Ht f. assert (CP : 0 < cos t) by (apply cos_gt_0; lra). unfold Cexp, tan. rewrite cos_2a_cos, sin_2a.
  pose proof (sin2_cos2 t) as S. unfold Rsqr in S. set (x := cos t) in *. set (s := sin t) in *. clearbody x s. split.
  - apply C_eq; simpl.
    + field. lra.
    + field_simplify; [|lra]. replace (s ^ 2) with (1 - x ^ 2) by (simpl; lra). field. 
  - intros E. injection E as E1 E2. assert (x * x = 0) by nra. nra.
Qed.

Lemma mixed_low checks cap n prs od g fc fs : ok_design prs od -> mixed (flat prs od) -> odd_inf od ->
  (2 * length prs + ocount od = n)%nat -> (1 <= n <= cap)%nat -> valid_freq fc fs ->
  exists c, bind (lp_transformer checks (fc / fs) (analog cap prs od 0 g) (lay_new cap)) (make_cascade cap) = Ok c /\ built cap n c /\
    (forall f, 0 < f -> 2 * f <= fs -> exists h, cas_response c (at_freq f fs) h /\
       Cnorm2 h = g * g * rprod (map (ifac (tan (PI * (fc / fs)) * (cos (PI * (f / fs)) / sin (PI * (f / fs))))) (flat prs od))) /\
    cas_response c at_dc (RtoC g).
Proof.
  intros OD AI OI HN Hn [V1 V2]. pose proof (norm_range fc fs V1 V2) as R1. destruct (tan_pos_range _ R1) as [TP CP].
  unfold lp_transformer. rewrite rtan_ok by lra. cbn [bind]. change (lay_w (analog cap prs od 0 g)) with 0.
  set (f := tan (PI * (fc / fs))) in *.
  assert (OK : design_ok 1 f prs od) by (apply OD; auto).
  destruct (design_cascade 1 f prs od OK checks (lp_transform f) cap 0 0 g) as [c [E [E1 [E2 [E3 E4]]]]].
  - intros d Hd. apply lp_transform_T; auto.
  - lia.
  - rewrite Cexp_0'. apply ref_not_zero; auto.
  - exists c. split; [exact E|]. split; [repeat split; auto; rewrite E1; apply count_half; auto|].
    assert (E4' : forall z, Cmod z = 1 -> cas_response c z (RtoC (g / Cmod (stages_of 1 f prs od (Cexp 0))) * stages_of 1 f prs od z)%C) by exact E4.
    clear E4. split.
    + intros f0 F1 F2. eexists. split; [apply E4'; apply Cmod_at_freq|].
      assert (R2 : 0 < PI * (f0 / fs) <= PI / 2).
      { destruct F2 as [F2|F2]; [pose proof (norm_range f0 fs F1 F2); lra|]. pose proof PI_RGT_0. rewrite <- F2.
        replace (PI * (f0 / (2 * f0))) with (PI / 2) by (field; lra). lra. }
      rewrite at_freq_half by lra. destruct (far_low _ R2 f) as [L1 L2].
      apply mixed_mag; auto. apply Cexp_0'. apply Cmod_exp.
    + unfold at_dc. change C1 with (RtoC 1). specialize (E4' (RtoC 1) Cmod_1). rewrite Cexp_0' in E4'.
      destruct (mixed_at_ref 1 f prs od OK AI OI) as [m [Pm Em]]. rewrite Em in E4'.
      rewrite response_at_ref_pos in E4' by (auto; destruct od; cbn [osign]; auto).
      replace (g * osign od 1) with g in E4' by (destruct od; cbn [osign]; ring). exact E4'.
Qed.
Lemma mixed_high checks cap n prs od g fc fs : ok_design prs od -> mixed (flat prs od) -> odd_inf od ->
  (2 * length prs + ocount od = n)%nat -> (1 <= n <= cap)%nat -> valid_freq fc fs ->
  exists c, bind (hp_transformer checks (fc / fs) (analog cap prs od 0 g) (lay_new cap)) (make_cascade cap) = Ok c /\ built cap n c /\
    (forall f, 0 <= f -> 2 * f < fs -> exists h, cas_response c (at_freq f fs) h /\
       Cnorm2 h = g * g * rprod (map (ifac (- (tan (PI * (f / fs)) / tan (PI * (fc / fs))))) (flat prs od))) /\
    cas_response c at_nyquist (RtoC (g * osign od (-1))).
Proof.
  intros OD AI OI HN Hn [V1 V2]. pose proof (norm_range fc fs V1 V2) as R1. destruct (tan_pos_range _ R1) as [TP CP].
  unfold hp_transformer. rewrite rtan_ok by lra. cbn [bind]. rewrite rdiv_ok by lra. cbn [bind]. change (lay_w (analog cap prs od 0 g)) with 0.
  set (T := tan (PI * (fc / fs))) in *. set (f := 1 / T). assert (FP : 0 < f) by (apply Rmult_lt_0_compat; [lra|apply Rinv_0_lt_compat; auto]).
  assert (OK : design_ok (-1) f prs od) by (apply OD; auto).
  rewrite Rminus_0_r.
  destruct (design_cascade (-1) f prs od OK checks (hp_transform f) cap 0 PI g) as [c [E [E1 [E2 [E3 E4]]]]].
  - intros d Hd. apply hp_transform_T; auto.
  - lia.
  - rewrite Cexp_PI. apply ref_not_zero; auto.
  - exists c. split; [exact E|]. split; [repeat split; auto; rewrite E1; apply count_half; auto|].
    assert (E4' : forall z, Cmod z = 1 -> cas_response c z (RtoC (g / Cmod (stages_of (-1) f prs od (Cexp PI))) * stages_of (-1) f prs od z)%C) by exact E4.
    clear E4. assert (M1 : Cmod (RtoC (-1)) = 1) by (rewrite Cmod_RtoC; unfold Rabs; destruct (Rcase_abs _); lra). split.
    + intros f0 F1 F2. eexists. split; [apply E4'; apply Cmod_at_freq|].
      assert (R2 : 0 <= PI * (f0 / fs) < PI / 2).
      { destruct F1 as [F1|<-]; [pose proof (norm_range f0 fs F1 F2); lra|]. pose proof PI_RGT_0. replace (PI * (0 / fs)) with 0 by (unfold Rdiv; ring). lra. }
      rewrite at_freq_half by lra. destruct (far_high _ R2 f) as [L1 L2].
      rewrite (mixed_mag (-1) f prs od PI g _ _ OK AI Cexp_PI (Cmod_exp _) L1 L2). do 3 f_equal.
      unfold f. f_equal. field. lra.
    + unfold at_nyquist. specialize (E4' (RtoC (-1)) M1). rewrite Cexp_PI in E4'.
      destruct (mixed_at_ref (-1) f prs od OK AI OI) as [m [Pm Em]]. rewrite Em in E4'.
      rewrite response_at_ref_pos in E4' by (auto; destruct od; cbn [osign]; auto). exact E4'.
Qed.

(** ** Type II *)
Definition ch2_pole (n : nat) (v : R) (k : nat) : C := Cscal (/ Cnorm2 (ch_pole n v k)) (ch_pole n v k).
Definition ch2_zero (n k : nat) : C := (0, / cos (thetak n k)).
Definition c2_pairs (n : nat) (v : R) := mk_pairs (ch2_pole n v) (fun k => Fin (ch2_zero n k)) n.
Definition c2_odd (n : nat) (v : R) := mk_odd (/ (- sinh v)) Inf n.

Lemma ch_pole_norm n v k : (k < n)%nat -> 0 < v -> 0 < Cnorm2 (ch_pole n v k).
Proof.
  intros Hk Hv. pose proof (sinh_pos v Hv). pose proof (chfac_pos n v 0 k Hk ltac:(lra)) as P. rewrite <- ch_dist in P.
  unfold Cnorm2 in *; simpl in *. nra.
Qed.
Lemma ok_c2 n v : 0 < v -> ok_design (c2_pairs n v) (c2_odd n v).
Proof.
  intros Hv s f Hs Hf. pose proof (sinh_pos v Hv) as SP. constructor; auto.
  - intros cz HI. apply in_map_iff in HI. destruct HI as [i [<- HI]]. apply in_seq in HI. assert (Hi : (i < n / 2)%nat) by lia. clear HI.
    destruct (thetak_sc n i Hi) as [Sp Cp]. pose proof (ch_pole_norm n v i (half_le n i Hi) Hv) as Np. pose proof (Rinv_0_lt_compat _ Np) as Ip.
    pose proof (cosh_pos v). cbn [fst snd]. unfold ch2_pole. set (I := / Cnorm2 (ch_pole n v i)) in *. clearbody I. unfold ch_pole, cc; simpl. split; [|split].
    + assert (0 < sinh v * sin (thetak n i)) by (apply Rmult_lt_0_compat; auto). nra.
    + lra.
    + right. assert (0 < cosh v * cos (thetak n i)) by (apply Rmult_lt_0_compat; auto). nra.
  - intros cz HO. unfold c2_odd, mk_odd in HO. destruct (Nat.odd n); [|discriminate]. injection HO as <-. cbn [fst snd]. split.
    + apply Rinv_lt_0_compat. lra.
    + split; [exact I|]. intros c E; discriminate.
Qed.
Lemma c2_mixed n v : mixed (flat (c2_pairs n v) (c2_odd n v)).
Proof.
  intros cz HI. apply in_flat_mk in HI. destruct HI as [[i [Hi [->| ->]]]|[_ ->]]; cbn [snd econj]; [| |exact I].
  - destruct (thetak_sc n i Hi) as [Sp Cp]. simpl. split; [lra|]. intros E. injection E as E. apply Rinv_neq_0_compat in E; [auto|lra].
  - destruct (thetak_sc n i Hi) as [Sp Cp]. simpl. split; [lra|]. intros E. injection E as E.
    assert (X : / cos (thetak n i) <> 0) by (apply Rinv_neq_0_compat; lra). lra.
Qed.
Lemma c2_oinf n v : odd_inf (c2_odd n v).
Proof. intros cz E. unfold c2_odd, mk_odd in E. destruct (Nat.odd n); [|discriminate]. injection E as <-. reflexivity. Qed.

Lemma scal_norm i p : Cnorm2 (Cscal i p) = i * i * Cnorm2 p.
Proof. unfold Cnorm2; simpl; ring. Qed.
Lemma scal_dist i y p : Cnorm2 (Ci - RtoC y * Cscal i p)%C = 1 - 2 * y * Im p * i + y * y * (i * i * Cnorm2 p).
Proof. unfold Cnorm2; simpl; ring. Qed.
Lemma recip_dist y p : 0 < Cnorm2 p -> Cnorm2 (Ci - RtoC y * Cscal (/ Cnorm2 p) p)%C / Cnorm2 (Cscal (/ Cnorm2 p) p) = Cnorm2 (RtoC y * Ci - p)%C.
Proof.
  intros Hp. rewrite scal_norm, scal_dist.
  transitivity (Cnorm2 p - 2 * y * Im p + y * y); [field; lra|]. unfold Cnorm2; simpl; ring.
Qed.
Lemma zero_dist y t : t <> 0 -> Cnorm2 (Ci - RtoC y * (0, / t))%C / Cnorm2 (0, / t) = (y - t) * (y - t).
Proof. intros Ht. unfold Cnorm2; simpl. field. auto. Qed.

Lemma c2_product n v y : (0 < n)%nat -> 0 < v ->
  rprod (map (ifac y) (flat (c2_pairs n v) (c2_odd n v))) =
  (cheb n y * cheb n y) / (cheb n y * cheb n y + sinh (INR n * v) * sinh (INR n * v)).
Proof.
  intros Hn Hv. pose proof (sinh_pos v Hv) as SP.
  replace (cheb n y * cheb n y) with (cheb n (- y) * cheb n (- y) + sinh (INR n * 0) * sinh (INR n * 0)) at 1
    by (rewrite cheb_opp_sq, Rmult_0_r, sinh_0; ring).
  rewrite <- ch_quotient by (auto; lra).
  assert (Z : forall k, chfac n 0 (- y) k = (y - cos (thetak n k)) * (y - cos (thetak n k))).
  { intros k. unfold chfac. rewrite cosh_0. pose proof (sin2_cos2 (thetak n k)) as S. unfold Rsqr in S. nra. }
  apply mk_product; auto.
  - intros i Hi. pose proof (half_le n i Hi) as Hn'. pose proof (ch_pole_norm n v i Hn' Hv) as Np.
    destruct (thetak_sc n i Hi) as [Sp Cp]. unfold ifac. cbn [fst snd econj].
    assert (EC : Cconj (ch2_pole n v i) = Cscal (/ Cnorm2 (Cconj (ch_pole n v i))) (Cconj (ch_pole n v i))).
    { unfold ch2_pole. rewrite Cnorm2_conj. apply C_eq; simpl; ring. }
    rewrite EC. unfold ch2_pole. rewrite !recip_dist by (try rewrite Cnorm2_conj; auto).
    rewrite ch_dist, ch_dist_conj by auto. 
    assert (EZ : Cconj (ch2_zero n i) = (0, / (- cos (thetak n i)))).
    { unfold ch2_zero. apply C_eq; simpl; auto. field. lra. }
    rewrite EZ. unfold ch2_zero. rewrite !zero_dist by lra. rewrite !Z, thetak_flip, Rtrigo_facts.cos_pi_minus by lia. reflexivity.
  - intros O. unfold ifac. cbn [fst snd].
    assert (EP : RtoC (/ - sinh v) = Cscal (/ Cnorm2 (RtoC (- sinh v))) (RtoC (- sinh v))).
    { rewrite Cnorm2_RtoC. apply C_eq; simpl; [field; lra|ring]. }
    assert (NP : 0 < Cnorm2 (RtoC (- sinh v))) by (rewrite Cnorm2_RtoC; nra).
    pose proof (recip_dist y (RtoC (- sinh v)) NP) as R1. rewrite <- EP in R1. rewrite (ch_dist_mid n) in R1 by auto.
    assert (QP : 0 < chfac n v y (n / 2)).
    { apply chfac_pos; [|lra]. pose proof (half_split n). rewrite O in H. lia. }
    rewrite Z, thetak_mid, cos_PI2 by auto. rewrite <- R1 in QP |- *.
    assert (P2 : 0 < Cnorm2 (RtoC (/ - sinh v))).
    { rewrite Cnorm2_RtoC. assert (/ - sinh v < 0) by (apply Rinv_lt_0_compat; lra). nra. }
    assert (P3 : Re (RtoC (/ - sinh v)) < 0) by (simpl; apply Rinv_lt_0_compat; lra). pose proof (iy_pos y _ P3).
    field. lra.
Qed.

Definition eps2 (r : R) : R := sqrt (1 / (Rpower 10 (r / 10) - 1)).
Definition v2 (n : nat) (r : R) : R := arcsinh (1 / eps2 r) / INR n.
Lemma eps2_pos r : 0 < r -> 0 < eps2 r.
Proof. intros Hr. apply sqrt_lt_R0. pose proof (pow10_gt1 (r / 10) ltac:(lra)). apply div_pos; lra. Qed.
Lemma eps2_sq r : 0 < r -> eps2 r * eps2 r = 1 / (Rpower 10 (r / 10) - 1).
Proof. intros Hr. apply sqrt_sqrt. pose proof (pow10_gt1 (r / 10) ltac:(lra)). apply Rlt_le, div_pos; lra. Qed.
Lemma v2_pos n r : (0 < n)%nat -> 0 < r -> 0 < v2 n r.
Proof.
  intros Hn Hr. apply div_pos; [|apply lt_0_INR; auto]. apply arcsinh_pos. apply div_pos; [lra|apply eps2_pos; auto].
Qed.
Lemma v2_sinh n r : (0 < n)%nat -> sinh (INR n * v2 n r) = 1 / eps2 r.
Proof.
  intros Hn. replace (INR n * v2 n r) with (arcsinh (1 / eps2 r)); [apply sinh_arcsinh|]. unfold v2. field. apply INR_neq0; lia.
Qed.
Lemma exp_stop r : exp (r * (1 / 10) * ln 10) = Rpower 10 (r / 10).
Proof. unfold Rpower. f_equal. field. Qed.

Lemma cheby2_loop n v l i m : (0 < n)%nat -> 0 < v -> (2 * (i + 1) <= n)%nat ->
  cheby2_pairs n (- sinh v) (cosh v) (PI / INR (2 * n)) (0 + i) (S m) l =
  bind (lay_insert_conjugate l (ch2_pole n v i) (Fin (ch2_zero n i))) (cheby2_pairs n (- sinh v) (cosh v) (PI / INR (2 * n)) (0 + i + 1) m).
Proof.
  intros Hn Hv Hi. rewrite Nat.add_0_l. cbn [cheby2_pairs].
  assert (Hi2 : (i < n / 2)%nat) by (pose proof (half_split n); destruct (Nat.odd n); lia).
  destruct (thetak_sc n i Hi2) as [Sp Cp].
  assert (HN : INR (2 * n) <> 0) by (apply INR_neq0; lia).
  replace ((2 * INR i + 1) * (PI / INR (2 * n))) with (thetak n i) by (unfold thetak; field; auto).
  replace ((2 * INR i + 1 - INR n) * (PI / INR (2 * n))) with (thetak n i - PI / 2).
  2:{ unfold thetak. rewrite mult_INR in *. simpl (INR 2) in *. field. intros E; apply HN; rewrite E; ring. }
  set (a := - sinh v * cos (thetak n i - PI / 2)). set (b := cosh v * sin (thetak n i - PI / 2)).
  assert (EA : (a, b) = ch_pole n v i) by apply c1_pole.
  assert (ED : a * a + b * b = Cnorm2 (ch_pole n v i)) by (rewrite <- EA; reflexivity).
  pose proof (ch_pole_norm n v i (half_le n i Hi2) Hv) as Np.
  rewrite ED. rewrite rdiv_ok by lra. cbn [bind]. rewrite !rdiv_ok by lra. cbn [bind].
  replace (cmk (a / Cnorm2 (ch_pole n v i)) (b / Cnorm2 (ch_pole n v i))) with (ch2_pole n v i).
  2:{ unfold ch2_pole, cmk. rewrite <- EA. apply C_eq; unfold Rdiv; simpl; ring. }
  replace (cmk 0 (1 / cos (thetak n i))) with (ch2_zero n i); [reflexivity|].
  unfold cmk, ch2_zero. f_equal. field. lra.
Qed.

Lemma cheby2_analog_step checks cap n r : (0 < n <= cap)%nat -> 0 < r ->
  cheby2_analog checks (lay_new cap) n r =
   if Nat.odd n then lay_insert checks (lay_of cap (map cpair (c2_pairs n (v2 n r))) (2 * (n / 2)) 0 1) (RtoC (/ - sinh (v2 n r))) Inf
   else Ok (lay_of cap (map cpair (c2_pairs n (v2 n r))) (2 * (n / 2)) 0 1).
Proof.
  intros Hn Hr. unfold cheby2_analog. change (length (pairs (lay_new cap))) with (length (repeat pz_default cap)). rewrite repeat_length.
  destruct (Nat.ltb_spec cap n); [lia|]. cbv zeta. rewrite lay_new_of, exp_stop.
  pose proof (pow10_gt1 (r / 10) ltac:(lra)) as P1.
  rewrite rdiv_ok by lra. cbn [bind]. rewrite rsqrt_ok by (apply Rlt_le, div_pos; lra). cbn [bind].
  fold (eps2 r). rewrite rdiv_ok by (pose proof (eps2_pos r Hr); lra). cbn [bind].
  rewrite rdiv_ok by (apply INR_neq0; lia). cbn [bind]. fold (v2 n r). rewrite rdiv_ok by (apply INR_neq0; lia). cbn [bind].
  pose proof (v2_pos n r ltac:(lia) Hr) as VP. pose proof (sinh_pos _ VP).
  rewrite (fill_ok (cheby2_pairs n (- sinh (v2 n r)) (cosh (v2 n r)) (PI / INR (2 * n))) (ch2_pole n (v2 n r)) (fun k => Fin (ch2_zero n k)) 0).
  - cbn [bind]. fold (c2_pairs n (v2 n r)). destruct (Nat.odd n); [|reflexivity].
    rewrite rdiv_ok by lra. cbn [bind]. replace (cmk (1 / - sinh (v2 n r)) 0) with (RtoC (/ - sinh (v2 n r))); [reflexivity|].
    unfold cmk, RtoC. f_equal. field. lra.
  - reflexivity.
  - intros i m l Hi. apply cheby2_loop; auto; lia.
  - lia.
Qed.
Lemma cheby2_analog_ok checks cap n r : (0 < n <= cap)%nat -> 0 < r -> checks = false \/ Nat.odd n = false ->
  cheby2_analog checks (lay_new cap) n r = Ok (analog cap (c2_pairs n (v2 n r)) (c2_odd n (v2 n r)) 0 1).
Proof.
  intros Hn Hr HC. rewrite cheby2_analog_step by auto. destruct (Nat.odd n) eqn:Eo.
  - destruct HC as [->|HC]; [|discriminate]. apply odd_analog; auto; lia.
  - f_equal. apply even_analog. auto.
Qed.
Lemma cheby2_analog_ub cap n r : (0 < n <= cap)%nat -> 0 < r -> Nat.odd n = true -> cheby2_analog true (lay_new cap) n r = UB.
Proof. intros Hn Hr Eo. rewrite cheby2_analog_step by auto. rewrite Eo. apply odd_analog_ub. Qed.
Lemma cheby2_analog_bad checks cap n r : (0 < n <= cap)%nat -> r <= 0 -> cheby2_analog checks (lay_new cap) n r = NonFinite.
Proof.
  intros Hn Hr. unfold cheby2_analog. change (length (pairs (lay_new cap))) with (length (repeat pz_default cap)). rewrite repeat_length.
  destruct (Nat.ltb_spec cap n); [lia|]. cbv zeta. rewrite exp_stop.
  pose proof (pow10_le1 (r / 10) ltac:(lra)) as P. destruct (Req_dec (Rpower 10 (r / 10) - 1) 0) as [E|E].
  - rewrite E, rdiv_zero. reflexivity.
  - rewrite rdiv_ok by auto. cbn [bind]. unfold rsqrt. destruct (Rlt_dec _ 0) as [L|L]; [reflexivity|].
    exfalso. apply L. assert (/ (Rpower 10 (r / 10) - 1) < 0) by (apply Rinv_lt_0_compat; lra). lra.
Qed.

Definition cheb2_mag (n : nat) (r y : R) : R := cheb n y * cheb n y / (cheb n y * cheb n y + (Rpower 10 (r / 10) - 1)).
Lemma c2_mag n r y : (0 < n)%nat -> 0 < r ->
  1 * 1 * rprod (map (ifac y) (flat (c2_pairs n (v2 n r)) (c2_odd n (v2 n r)))) = cheb2_mag n r y.
Proof.
  intros Hn Hr. rewrite c2_product, v2_sinh by (auto; apply v2_pos; auto).
  pose proof (eps2_pos r Hr) as EP. pose proof (eps2_sq r Hr) as E2. unfold cheb2_mag.
  pose proof (pow10_gt1 (r / 10) ltac:(lra)) as P1.
  replace (1 / eps2 r * (1 / eps2 r)) with (Rpower 10 (r / 10) - 1); [ring|].
  transitivity (1 / (eps2 r * eps2 r)); [rewrite E2|]; field; lra.
Qed.
Lemma cheb2_mag_opp n r x : cheb2_mag n r (- x) = cheb2_mag n r x.
Proof. unfold cheb2_mag. rewrite cheb_opp_sq. reflexivity. Qed.

Lemma cheby2_low_lemma checks cap n fs fc r : (1 <= n <= cap)%nat -> valid_freq fc fs -> 0 < r -> checks = false \/ Nat.odd n = false ->
  exists c, cheby2_lowpass checks cap n fs fc r = Ok c /\ built cap n c /\
    (forall f, 0 < f -> 2 * f <= fs -> exists h, cas_response c (at_freq f fs) h /\
       Cnorm2 h = cheb2_mag n r (tan (PI * (fc / fs)) * (cos (PI * (f / fs)) / sin (PI * (f / fs))))) /\
    cas_response c at_dc C1.
Proof.
  intros Hn HV Hr HC.
  destruct (mixed_low checks cap n _ _ 1 fc fs (ok_c2 n _ (v2_pos n r ltac:(lia) Hr)) (c2_mixed n _) (c2_oinf n _) (mk_count _ _ _ _ n) Hn HV)
    as [c [E [B [F D]]]].
  exists c. split; [|split; [exact B|split; [|exact D]]].
  - unfold cheby2_lowpass. rewrite rdiv_ok by (destruct HV; lra). cbn [bind]. rewrite cheby2_analog_ok by (auto; lia). exact E.
  - intros f F1 F2. destruct (F f F1 F2) as [h [Hh Hm]]. exists h. split; auto. rewrite Hm. apply c2_mag; [lia|auto].
Qed.
Lemma cheby2_high_lemma checks cap n fs fc r : (1 <= n <= cap)%nat -> valid_freq fc fs -> 0 < r -> checks = false \/ Nat.odd n = false ->
  exists c, cheby2_highpass checks cap n fs fc r = Ok c /\ built cap n c /\
    (forall f, 0 <= f -> 2 * f < fs -> exists h, cas_response c (at_freq f fs) h /\
       Cnorm2 h = cheb2_mag n r (tan (PI * (f / fs)) / tan (PI * (fc / fs)))) /\
    cas_response c at_nyquist (RtoC (if Nat.odd n then -1 else 1)).
Proof.
  intros Hn HV Hr HC.
  destruct (mixed_high checks cap n _ _ 1 fc fs (ok_c2 n _ (v2_pos n r ltac:(lia) Hr)) (c2_mixed n _) (c2_oinf n _) (mk_count _ _ _ _ n) Hn HV)
    as [c [E [B [F D]]]].
  exists c. split; [|split; [exact B|split]].
  - unfold cheby2_highpass. rewrite rdiv_ok by (destruct HV; lra). cbn [bind]. rewrite cheby2_analog_ok by (auto; lia). exact E.
  - intros f F1 F2. destruct (F f F1 F2) as [h [Hh Hm]]. exists h. split; auto. rewrite Hm, c2_mag by (auto; lia). apply cheb2_mag_opp.
  - unfold c2_odd, mk_odd in D. rewrite Rmult_1_l in D. destruct (Nat.odd n); exact D.
Qed.
