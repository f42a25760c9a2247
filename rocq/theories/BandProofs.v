(** Cascades obtained from a prototype by a degree-two substitution: every analogue root is sent to the two
    roots of N(z) - c M(z). *)
From Coq Require Import Psatz Lia List.
From Verif Require Import RealBase RealBaseProofs BaseProofs Cplx CplxProofs PolyProofs BiquadModel BiquadSpec BiquadProofs.
From Verif Require Import StabilityProofs CascadeProofs DesignModel DesignSpec DesignProofs DesignProofs2 LayoutModel LayoutProofs.
From Verif Require Import BilinearProofs ButterProofs BandModel.
Import ListNotations.
Local Open Scope R_scope.

(** Two roots of a real quadratic. *)
Definition realpair (p q : C) : Prop := (Im p = 0 /\ Im q = 0) \/ q = Cconj p.
Definition realc (c : ecomplex) : Prop := match c with Inf => True | Fin d => Im d = 0 end.

Definition gen_biquad (p1 z1 p2 z2 : C) : biquad :=
  mkBq (Re (z1 * z2)%C) (- Re (z1 + z2)%C) 1 (Re (p1 * p2)%C) (- Re (p1 + p2)%C) 1 0 0.

Lemma pair_coeffs_rp p q : realpair p q -> pair_coeffs p q = Ok (- Re (p + q)%C, Re (p * q)%C).
Proof.
  intros [[A B]| ->].
  - unfold pair_coeffs. rewrite A, B. destruct (Req_EM_T 0 0); [|lra]. do 2 f_equal. simpl. rewrite A. ring.
  - rewrite pair_coeffs_conj. do 2 f_equal; unfold Cnorm2; simpl; ring.
Qed.
Lemma rp_im p q : realpair p q -> Im (p + q)%C = 0 /\ Im (p * q)%C = 0.
Proof. intros [[A B]| ->]; simpl; [rewrite A, B|]; split; ring. Qed.
Lemma rp_conj p : realpair p (Cconj p). Proof. right. reflexivity. Qed.

Lemma rp_quad p q z : realpair p q -> ((z - p) * (z - q) = z * z + RtoC (- Re (p + q)) * z + RtoC (Re (p * q)))%C.
Proof.
  intros R. destruct (rp_im p q R) as [A B]. 
  replace (RtoC (- Re (p + q)%C)) with (- (p + q))%C by (apply C_eq; [reflexivity|]; cbn [Im RtoC snd Copp]; change (snd (p + q)%C) with (Im (p + q)%C); rewrite A; ring).
  replace (RtoC (Re (p * q)%C)) with (p * q)%C by (apply C_eq; [reflexivity|exact B]). ring.
Qed.
Lemma gen_den p1 z1 p2 z2 z : realpair p1 p2 -> tf_den (a1 (gen_biquad p1 z1 p2 z2)) (a2 (gen_biquad p1 z1 p2 z2)) z = ((z - p1) * (z - p2))%C.
Proof. intros R. rewrite (rp_quad p1 p2 z R). unfold gen_biquad, tf_den. cbn [a1 a2]. ring. Qed.
Lemma gen_num p1 z1 p2 z2 z : realpair z1 z2 ->
  tf_num (b0 (gen_biquad p1 z1 p2 z2)) (b1 (gen_biquad p1 z1 p2 z2)) (b2 (gen_biquad p1 z1 p2 z2)) z = ((z - z1) * (z - z2))%C.
Proof. intros R. rewrite (rp_quad z1 z2 z R). unfold gen_biquad, tf_num. cbn [b0 b1 b2]. change (RtoC 1) with C1. ring. Qed.
Lemma gen_stable p1 z1 p2 z2 : realpair p1 p2 -> Cmod p1 < 1 -> Cmod p2 < 1 -> bq_stability (gen_biquad p1 z1 p2 z2) = true.
Proof.
  intros R H1 H2. apply stability_lemma. intros y Hy.
  assert (Hy' : ((y - p1) * (y - p2))%C = C0) by (rewrite <- (gen_den p1 z1 p2 z2) by auto; exact Hy). clear Hy. rename Hy' into Hy. apply Cmul_eq0 in Hy. destruct Hy as [E|E].
  - replace y with p1; auto. transitivity (y - (y - p1))%C; [|rewrite E]; ring.
  - replace y with p2; auto. transitivity (y - (y - p2))%C; [|rewrite E]; ring.
Qed.
Lemma gen_make p1 z1 p2 z2 : realpair p1 p2 -> realpair z1 z2 -> p2 <> C0 \/ z2 <> C0 ->
  make_biquad (mkPz p1 (Fin z1) p2 (Fin z2)) = Ok (gen_biquad p1 z1 p2 z2).
Proof.
  intros RP RZ NZ. unfold make_biquad. cbn [zero1 zero2 pole1 pole2]. unfold single_pole. cbn [pole2 zero2 eis_zero].
  assert (X : (is_zero p2 && is_zero z2)%bool = false).
  { destruct NZ as [NZ|NZ]; rewrite (is_zero_false _ NZ); [reflexivity|apply Bool.andb_false_r]. }
  rewrite X. unfold bq_pairs. rewrite (pair_coeffs_rp p1 p2 RP), (pair_coeffs_rp z1 z2 RZ). reflexivity.
Qed.
Lemma gen_H2 p1 z1 p2 z2 z : realpair p1 p2 -> realpair z1 z2 -> Cmod p1 < 1 -> Cmod p2 < 1 -> Cmod z = 1 ->
  Cnorm2 (H (gen_biquad p1 z1 p2 z2) z) = Cnorm2 ((z - z1) * (z - z2))%C / Cnorm2 ((z - p1) * (z - p2))%C.
Proof.
  intros RP RZ H1 H2 Hz. pose proof (stable_den _ z (gen_stable p1 z1 p2 z2 RP H1 H2) Hz) as HD. unfold H.
  rewrite Cnorm2_div by auto. rewrite gen_den, gen_num by auto. reflexivity.
Qed.

(** ** The substitution *)
Definition lead (b : R) (c : ecomplex) : C := match c with Inf => C1 | Fin d => (RtoC b - d)%C end.
Definition poly (N M : C -> C) (c : ecomplex) (z : C) : C := match c with Inf => M z | Fin d => (N z - d * M z)%C end.

Record band_map (tr : ecomplex -> res (C * C)) (b : R) (N M : C -> C) : Prop := {
  bm_b : 0 < b;
  bm_N : forall z, N (Cconj z) = Cconj (N z);
  bm_M : forall z, M (Cconj z) = Cconj (M z);
  bm_0 : exists n0 m0, N C0 = RtoC n0 /\ M C0 = RtoC m0 /\ m0 <> 0;
  bm_roots : forall c, lhp c -> exists r, tr c = Ok r /\
     (forall z, (lead b c * ((z - fst r) * (z - snd r)))%C = poly N M c z) /\ (realc c -> realpair (fst r) (snd r));
  bm_stable : forall z c, 1 <= Cnorm2 z -> Re c < 0 -> (N z - c * M z)%C <> C0
}.

Definition rts (tr : ecomplex -> res (C * C)) (c : ecomplex) : C * C := match tr c with Ok r => r | _ => (C0, C0) end.

(** The two sections made from a conjugate pair and the one made from a real root. *)
Definition bsec (p z : C) : pz := mkPz p (Fin z) (Cconj p) (Fin (Cconj z)).
Definition dband (tr : ecomplex -> res (C * C)) (cz : C * ecomplex) : list pz :=
  let p := rts tr (Fin (fst cz)) in let z := rts tr (snd cz) in [bsec (fst p) (fst z); bsec (snd p) (snd z)].
Definition dreal (tr : ecomplex -> res (C * C)) (cz : R * ecomplex) : pz :=
  let p := rts tr (Fin (RtoC (fst cz))) in let z := rts tr (snd cz) in mkPz (fst p) (Fin (fst z)) (snd p) (Fin (snd z)).
Definition dlist tr prs od : list pz := flat_map (dband tr) prs ++ olist (dreal tr) od.

(** Squared magnitudes of the factors. *)
Definition gnum (b : R) (N M : C -> C) (c : ecomplex) (z : C) : R := Cnorm2 (poly N M c z) / Cnorm2 (lead b c).
Definition bfac (b : R) (N M : C -> C) (z : C) (cz : C * ecomplex) : R := gnum b N M (snd cz) z / gnum b N M (Fin (fst cz)) z.

Record band_ok (tr : ecomplex -> res (C * C)) (adj : C * C -> C * C) (prs : list (C * ecomplex)) (od : option (R * ecomplex)) : Prop := {
  bo_p : forall cz, In cz prs -> Re (fst cz) < 0 /\ lhp (snd cz) /\ (snd cz = Inf \/ Im (fst cz) <> 0) /\ adj (rts tr (snd cz)) = rts tr (snd cz);
  bo_o : forall cz, od = Some cz -> fst cz < 0 /\ lhp (snd cz) /\ realc (snd cz)
}.

Section Map.
Variables (tr : ecomplex -> res (C * C)) (adj : C * C -> C * C) (b : R) (N M : C -> C).
Hypothesis BM : band_map tr b N M.
Variables (prs : list (C * ecomplex)) (od : option (R * ecomplex)).
Hypothesis BO : band_ok tr adj prs od.

Lemma rts_ok c : lhp c -> tr c = Ok (rts tr c) /\
  (forall z, (lead b c * ((z - fst (rts tr c)) * (z - snd (rts tr c))))%C = poly N M c z) /\
  (realc c -> realpair (fst (rts tr c)) (snd (rts tr c))).
Proof. intros Hc. destruct (bm_roots _ _ _ _ BM c Hc) as [r [E [A B]]]. unfold rts. rewrite E. auto. Qed.

Lemma lead_nz c : lhp c -> lead b c <> C0.
Proof.
  intros Hc E. pose proof (bm_b _ _ _ _ BM). destruct c as [d|]; simpl in *.
  - apply (f_equal Re) in E. simpl in E. lra.
  - apply C1_neq0. auto.
Qed.

Lemma gnum_roots c z : lhp c -> Cnorm2 ((z - fst (rts tr c)) * (z - snd (rts tr c)))%C = gnum b N M c z.
Proof.
  intros Hc. destruct (rts_ok c Hc) as [_ [A _]]. unfold gnum. rewrite <- A, (Cnorm2_mul (lead b c)).
  pose proof (C_neq0 _ (lead_nz c Hc)). field. lra.
Qed.
Lemma gnum_conj c z : gnum b N M (econj c) z = gnum b N M c (Cconj z).
Proof.
  unfold gnum. f_equal.
  - destruct c as [d|]; simpl; rewrite ?(bm_N _ _ _ _ BM), ?(bm_M _ _ _ _ BM).
    + rewrite <- (Cnorm2_conj (N z - Cconj d * M z)%C). f_equal. apply C_eq; simpl; ring.
    + symmetry. apply Cnorm2_conj.
  - destruct c as [d|]; simpl; auto. unfold Cnorm2; simpl; ring.
Qed.
Lemma gnum_conj_roots c z : lhp c -> Cnorm2 ((z - Cconj (fst (rts tr c))) * (z - Cconj (snd (rts tr c))))%C = gnum b N M (econj c) z.
Proof.
  intros Hc. rewrite gnum_conj, <- gnum_roots by auto. rewrite <- (Cnorm2_conj ((z - _) * _)%C). f_equal.
  apply C_eq; simpl; ring.
Qed.

Lemma roots_in c : Re c < 0 -> Cmod (fst (rts tr (Fin c))) < 1 /\ Cmod (snd (rts tr (Fin c))) < 1.
Proof.
  intros Hc. assert (L : lhp (Fin c)) by (simpl; lra). destruct (rts_ok (Fin c) L) as [_ [A _]].
  assert (K : forall z, (z = fst (rts tr (Fin c)) \/ z = snd (rts tr (Fin c))) -> Cmod z < 1).
  { intros z Hz. apply Cmod_lt_1. destruct (Rlt_dec (Cnorm2 z) 1) as [|NL]; auto. exfalso.
    apply (bm_stable _ _ _ _ BM z c); [lra|auto|]. change (poly N M (Fin c) z = C0). rewrite <- A. destruct Hz as [<-|<-]; ring. }
  split; apply K; auto.
Qed.

Lemma root_nz c : lhp c -> (fst (rts tr c) = C0 \/ snd (rts tr c) = C0) -> exists n0 m0, N C0 = RtoC n0 /\ M C0 = RtoC m0 /\ m0 <> 0 /\
  c = Fin (RtoC (n0 / m0)).
Proof.
  intros Hc HZ. destruct (rts_ok c Hc) as [_ [A _]]. specialize (A C0).
  destruct (bm_0 _ _ _ _ BM) as [n0 [m0 [E1 [E2 E3]]]]. exists n0, m0. split; auto. split; auto. split; auto.
  assert (P : poly N M c C0 = C0) by (rewrite <- A; destruct HZ as [-> | ->]; ring).
  assert (MZ : RtoC m0 <> C0) by (apply RtoC_neq0; auto).
  destruct c as [d|]; simpl in P; [|rewrite E2 in P; contradiction].
  f_equal. rewrite E1, E2 in P. assert (X : RtoC n0 = (d * RtoC m0)%C) by (transitivity ((RtoC n0 - d * RtoC m0) + d * RtoC m0)%C; [ring|rewrite P; ring]).
  pose proof (f_equal Re X) as X1. pose proof (f_equal Im X) as X2. simpl in X1, X2. apply C_eq; simpl.
  - rewrite X1. field. auto.
  - apply (Rmult_eq_reg_r m0); auto. lra.
Qed.

Lemma flat_props cz : In cz (flat prs od) -> Re (fst cz) < 0 /\ lhp (snd cz).
Proof.
  intros HI. unfold flat in HI. apply in_app_or in HI. destruct HI as [HI|HI].
  - apply in_flat_map in HI. destruct HI as [x [Hx [<-|[<-|[]]]]]; destruct (bo_p _ _ _ _ BO x Hx) as [A [B _]]; simpl; auto.
    split; auto. destruct (snd x); simpl in *; auto.
  - destruct od as [x|] eqn:E; [|destruct HI]. destruct HI as [<-|[]]. simpl. destruct (bo_o _ _ _ _ BO x eq_refl) as [A [B _]]; auto.
Qed.

Lemma bsec_make cz (sel : C * C -> C) : (sel = fst \/ sel = snd) -> In cz prs ->
  make_biquad (bsec (sel (rts tr (Fin (fst cz)))) (sel (rts tr (snd cz)))) =
  Ok (gen_biquad (sel (rts tr (Fin (fst cz)))) (sel (rts tr (snd cz))) (Cconj (sel (rts tr (Fin (fst cz))))) (Cconj (sel (rts tr (snd cz))))).
Proof.
  intros HS HI. destruct (bo_p _ _ _ _ BO cz HI) as [A [B [D _]]].
  apply gen_make; try apply rp_conj.
  assert (CZ : forall x, Cconj x = C0 -> x = C0) by (intros x E; rewrite <- (Cconj_invol x), E; apply C_eq; simpl; ring).
  assert (K : forall c, lhp c -> sel (rts tr c) = C0 -> exists n0 m0, N C0 = RtoC n0 /\ M C0 = RtoC m0 /\ m0 <> 0 /\ c = Fin (RtoC (n0 / m0))).
  { intros c Hc Hs. apply root_nz; auto. destruct HS as [-> | ->]; auto. }
  destruct D as [D|D].
  - right. intros E. apply CZ in E. destruct (K _ B E) as [n0 [m0 [_ [_ [_ F]]]]]. rewrite D in F. discriminate.
  - left. intros E. apply CZ in E. destruct (K (Fin (fst cz)) ltac:(simpl; lra) E) as [n0 [m0 [_ [_ [_ F]]]]]. injection F as F.
    apply D. rewrite F. reflexivity.
Qed.

(** A real pole pair; if both products vanish the one-pole constructor is used, which then gives an all-pass. *)
Lemma flat_section r z : Cmod z = 1 -> -1 < r < 1 -> good (single_biquad r r) /\ Cnorm2 (H (single_biquad r r) z) = 1.
Proof.
  intros Hz Hr. assert (S : bq_stability (single_biquad r r) = true).
  { apply stability_lemma. intros y Hy. unfold tf_den, single_biquad in Hy. cbn [a1 a2] in Hy.
    assert (Hy' : (y * (y - RtoC r))%C = C0) by (rewrite <- Hy; apply C_eq; simpl; ring). apply Cmul_eq0 in Hy'. destruct Hy' as [-> |E].
    - rewrite Cmod_0. lra.
    - assert (Ey : y = RtoC r) by (transitivity ((y - RtoC r) + RtoC r)%C; [ring|rewrite E; ring]). rewrite Ey. rewrite Cmod_RtoC. apply Rabs_def1; lra. }
  split; [split; [exact S|split; [reflexivity|split; reflexivity]]|].
  pose proof (stable_den _ z S Hz) as HD. unfold H. rewrite Cnorm2_div by auto. pose proof (C_neq0 _ HD) as P.
  apply (Rmult_eq_reg_r (Cnorm2 (tf_den (a1 (single_biquad r r)) (a2 (single_biquad r r)) z))); [|lra]. unfold Rdiv. rewrite Rmult_assoc, Rinv_l by lra.
  assert (E : Cnorm2 z = 1) by (rewrite <- Cmod_sqr, Hz; ring).
  unfold tf_num, tf_den, single_biquad. cbn [b0 b1 b2 a1 a2].
  replace (RtoC (- r) * z * z + RtoC 1 * z + RtoC 0)%C with (z * (C1 - RtoC r * z))%C by (apply C_eq; simpl; ring).
  replace (z * z + RtoC (- r) * z + RtoC 0)%C with (z * (z - RtoC r))%C by (apply C_eq; simpl; ring).
  rewrite !Cnorm2_mul, E. unfold Cnorm2 in *. simpl. simpl in E.
  apply Rminus_diag_uniq. transitivity ((r * r - 1) * (fst z * fst z + snd z * snd z - 1)); [unfold Re, Im; ring|unfold Re, Im in E; rewrite E; ring].
Qed.
Lemma dreal_make cz : od = Some cz ->
  exists q, make_biquad (dreal tr cz) = Ok q /\ good q /\
    forall z, Cmod z = 1 -> Cnorm2 (H q z) =
      Cnorm2 ((z - fst (rts tr (snd cz))) * (z - snd (rts tr (snd cz))))%C /
      Cnorm2 ((z - fst (rts tr (Fin (RtoC (fst cz))))) * (z - snd (rts tr (Fin (RtoC (fst cz))))))%C.
Proof.
  intros E. destruct (bo_o _ _ _ _ BO cz E) as [A [B D]].
  assert (L : lhp (Fin (RtoC (fst cz)))) by (simpl; lra). destruct (roots_in (RtoC (fst cz)) A) as [I1 I2].
  destruct (rts_ok _ L) as [_ [_ R1]]. destruct (rts_ok _ B) as [_ [_ R2]]. specialize (R1 eq_refl). specialize (R2 D).
  assert (NZ : snd (rts tr (Fin (RtoC (fst cz)))) <> C0 \/ snd (rts tr (snd cz)) <> C0 -> exists q, make_biquad (dreal tr cz) = Ok q /\ good q /\
    forall z, Cmod z = 1 -> Cnorm2 (H q z) = Cnorm2 ((z - fst (rts tr (snd cz))) * (z - snd (rts tr (snd cz))))%C /
      Cnorm2 ((z - fst (rts tr (Fin (RtoC (fst cz))))) * (z - snd (rts tr (Fin (RtoC (fst cz))))))%C).
  { intros X. eexists. split; [apply gen_make; auto|]. split; [split; [apply gen_stable; auto|split; [reflexivity|split; reflexivity]]|].
    intros z Hz. apply gen_H2; auto. }
  destruct (C_dec (snd (rts tr (Fin (RtoC (fst cz))))) C0) as [Z1|Z1]; [|apply NZ; auto].
  destruct (C_dec (snd (rts tr (snd cz))) C0) as [Z2|Z2]; [|apply NZ; auto]. clear NZ.
  assert (EQ : snd cz = Fin (RtoC (fst cz))).
  { destruct (root_nz _ L (or_intror Z1)) as [n0 [m0 [A1 [A2 [A3 A4]]]]].
    destruct (root_nz _ B (or_intror Z2)) as [n1 [m1 [B1 [B2 [B3 B4]]]]]. rewrite A4, B4. do 3 f_equal.
    - rewrite A1 in B1. apply (f_equal Re) in B1. simpl in B1. auto.
    - rewrite A2 in B2. apply (f_equal Re) in B2. simpl in B2. congruence. }
  clear Z2 R2. unfold dreal. cbv zeta. rewrite EQ. destruct (rts tr (Fin (RtoC (fst cz)))) as [p1 p2]. cbn [fst snd] in *. subst p2.
  assert (IP : Im p1 = 0) by (destruct R1 as [[X _]|X]; [exact X|]; apply (f_equal Im) in X; simpl in X; change (snd p1) with (Im p1) in X; lra).
  assert (EP : p1 = RtoC (Re p1)) by (apply C_eq; [reflexivity|exact IP]). set (r := Re p1) in *. rewrite EP in I1. rewrite Cmod_RtoC in I1.
  assert (Hr : -1 < r < 1) by (apply Rabs_def2 in I1; lra). exists (single_biquad r r). split; [|split].
  - rewrite EP. unfold make_biquad. cbn [zero1 zero2 pole1 pole2]. unfold single_pole. cbn [pole2 zero2 eis_zero].
    assert (X : is_zero C0 = true) by (unfold is_zero; simpl; destruct (Req_EM_T 0 0); [reflexivity|lra]). rewrite X. cbn [andb]. apply bq_single.
  - exact (proj1 (flat_section r C1 Cmod_1 Hr)).
  - intros z Hz. rewrite (proj2 (flat_section r z Hz Hr)). assert (X : Cnorm2 ((z - p1) * (z - C0))%C <> 0); [|field; exact X].
    rewrite Cnorm2_mul. assert (NE : forall p, Cmod p < 1 -> Cnorm2 (z - p)%C <> 0).
    { intros p Hp X. apply Cnorm2_0 in X. assert (z = p) by (transitivity ((z - p) + p)%C; [ring|rewrite X; ring]). subst p. lra. }
    apply Rmult_integral_contrapositive. split; apply NE; auto. rewrite EP, Cmod_RtoC. exact I1.
Qed.

Definition sections_at (z : C) : C := cprod (map (fun p => H (mkb p) z) (dlist tr prs od)).

Lemma band_mag z : Cmod z = 1 -> Cnorm2 (sections_at z) = rprod (map (bfac b N M z) (flat prs od)).
Proof.
  intros Hz. unfold sections_at, dlist, flat. rewrite !map_app, cprod_app, Cnorm2_mul, rprod_app. f_equal.
  - assert (HP : forall cz, In cz prs -> In cz prs) by auto. revert HP. generalize prs at 1 3 4. intros l HP.
    induction l as [|cz l IH]; [unfold Cnorm2; simpl; ring|].
    specialize (IH (fun x Hx => HP x (or_intror Hx))). pose proof (HP cz (or_introl eq_refl)) as HI.
    destruct (bo_p _ _ _ _ BO cz HI) as [A [B [D _]]]. destruct (roots_in (fst cz) A) as [I1 I2].
    cbn [flat_map]. rewrite !map_app, cprod_app, Cnorm2_mul, rprod_app, IH. f_equal. clear IH.
    unfold dband. cbn [map cprod rprod]. unfold mkb.
    rewrite (bsec_make cz fst (or_introl eq_refl) HI), (bsec_make cz snd (or_intror eq_refl) HI).
    rewrite !Cnorm2_mul. rewrite !gen_H2 by (try apply rp_conj; rewrite ?Cmod_conj; auto).
    replace (Cnorm2 C1) with 1 by (unfold Cnorm2; simpl; ring).
    unfold bfac, cz_conj. cbn [fst snd]. change (Fin (Cconj (fst cz))) with (econj (Fin (fst cz))).
    assert (L : lhp (Fin (fst cz))) by (simpl; lra).
    rewrite <- (gnum_roots _ z B), <- (gnum_roots _ z L), <- (gnum_conj_roots _ z B), <- (gnum_conj_roots _ z L).
    set (P1 := fst (rts tr (Fin (fst cz)))) in *. set (P2 := snd (rts tr (Fin (fst cz)))) in *.
    set (Z1 := fst (rts tr (snd cz))). set (Z2 := snd (rts tr (snd cz))). clearbody P1 P2 Z1 Z2.
    assert (NE : forall p, Cmod p < 1 -> Cnorm2 (z - p)%C <> 0).
    { intros p Hp E. apply Cnorm2_0 in E. assert (z = p) by (transitivity ((z - p) + p)%C; [ring|rewrite E; ring]). subst p. lra. }
    rewrite !Cnorm2_mul. field. repeat split; apply NE; rewrite ?Cmod_conj; auto.
  - remember od as o eqn:E in |- *. destruct o as [cz|]; cbn [olist map cprod rprod]; [|unfold Cnorm2; simpl; ring]. symmetry in E.
    destruct (bo_o _ _ _ _ BO cz E) as [A [B D]]. destruct (dreal_make cz E) as [q [G [_ HQ]]].
    unfold mkb. rewrite G. rewrite Cnorm2_mul, HQ by auto. 
    replace (Cnorm2 C1) with 1 by (unfold Cnorm2; simpl; ring). rewrite !Rmult_1_r. unfold bfac. cbn [fst snd].
    rewrite !gnum_roots; auto. simpl. lra.
Qed.

Lemma gnum_nz z c : Cmod z = 1 -> Re c < 0 -> 0 < gnum b N M (Fin c) z.
Proof.
  intros Hz Hc. unfold gnum. apply Rmult_lt_0_compat; [|apply Rinv_0_lt_compat]; apply C_neq0.
  - apply (bm_stable _ _ _ _ BM); auto. rewrite <- Cmod_sqr, Hz. lra.
  - apply lead_nz. simpl. lra.
Qed.

(** The digital layout. *)
Lemma band_pairs_ok cap cap' oda np w g : forall todo done dd w' g',
  (forall cz, In cz todo -> In cz prs) ->
  (length done + length todo < np / 2 + 1)%nat -> (length dd + 2 * length todo <= cap')%nat ->
  band_pairs tr adj (lay_of cap (map cpair (done ++ todo) ++ oda) np w g) (length done) (length todo)
     (lay_of cap' dd (2 * length dd) w' g')
  = Ok (lay_of cap' (dd ++ flat_map (dband tr) todo) (2 * (length dd + 2 * length todo)) w' g').
Proof.
  induction todo as [|cz todo IH]; intros done dd w' g' HP HL HC.
  - simpl. rewrite app_nil_r. do 2 f_equal. lia.
  - cbn [length band_pairs].
    replace (map cpair (done ++ cz :: todo) ++ oda) with (map cpair done ++ cpair cz :: (map cpair todo ++ oda))
      by (rewrite map_app, <- app_assoc; reflexivity).
    rewrite <- (map_length cpair done). rewrite lay_get_ok by (rewrite map_length; cbn [length] in HL; lia). cbn [bind].
    change (pole1 (cpair cz)) with (fst cz). change (zero1 (cpair cz)) with (snd cz).
    destruct (bo_p _ _ _ _ BO cz (HP cz (or_introl eq_refl))) as [A [B [D F]]].
    rewrite (proj1 (rts_ok (Fin (fst cz)) ltac:(simpl; lra))). cbn [bind]. rewrite (proj1 (rts_ok (snd cz) B)). cbn [bind]. rewrite F.
    cbn [length] in HC, HL. rewrite insert_conj_ok by lia. cbn [bind]. rewrite insert_conj_ok by (rewrite app_length; cbn [length]; lia). cbn [bind].
    replace (map cpair done ++ cpair cz :: (map cpair todo ++ oda)) with (map cpair ((done ++ [cz]) ++ todo) ++ oda)
      by (rewrite <- app_assoc, map_app, <- app_assoc; reflexivity).
    rewrite map_length.
    replace (length done + 1)%nat with (length (done ++ [cz])) by (rewrite app_length; reflexivity).
    rewrite IH.
    + f_equal. rewrite !app_length. cbn [length flat_map]. rewrite <- !app_assoc. cbn [econj]. f_equal. lia.
    + intros; apply HP; right; auto.
    + rewrite app_length. cbn [length]. lia.
    + rewrite !app_length. cbn [length]. lia.
Qed.

Lemma dband_len l : length (flat_map (dband tr) l) = (2 * length l)%nat.
Proof. induction l; auto. cbn [flat_map length]. rewrite app_length, IHl. cbn [dband length]. lia. Qed.
Lemma dlist_len : length (dlist tr prs od) = (2 * length prs + ocount od)%nat.
Proof. unfold dlist. rewrite app_length, dband_len. destruct od; reflexivity. Qed.

Lemma band_layout_ok checks cap cap' w g : (2 * length prs + ocount od <= cap')%nat -> checks = false \/ od = None ->
  band_layout checks tr adj (analog cap prs od w g) (lay_new cap') =
  Ok (lay_of cap' (dlist tr prs od) (2 * (2 * length prs + ocount od)) 0 g).
Proof.
  intros HC HK. unfold band_layout. cbn [num_poles lay_gain analog lay_of].
  assert (HD : ((2 * length prs + ocount od) / 2 = length prs)%nat).
  { destruct od; simpl (ocount _); [apply div2_odd|rewrite Nat.add_0_r; apply div2_even]. }
  rewrite HD.
  change (lay_reset (lay_new cap')) with (mkLay 0 (repeat pz_default cap') 0 1).
  pose proof (band_pairs_ok cap cap' (olist spair od) (2 * length prs + ocount od) w g prs [] [] 0 1 (fun _ h => h)) as E.
  cbn [length app] in E. unfold lay_of at 2 in E. cbn [app] in E. rewrite Nat.sub_0_r in E. change (2 * 0)%nat with 0%nat in E.
  unfold analog. cbn [num_poles lay_gain lay_of] in *. unfold lay_of at 1. fold (lay_of cap (map cpair prs ++ olist spair od) (2 * length prs + ocount od) w g).
  cbn [length] in E. rewrite E by (rewrite ?HD; lia). cbn [bind]. unfold dlist.
  remember od as o eqn:Eo in HC, HK |- *. destruct o as [cz|]; cbn [ocount olist] in *; symmetry in Eo.
  - destruct HK as [->|HK]; [|discriminate].
    replace (Nat.odd (2 * length prs + 1)) with true by (rewrite Nat.odd_add, Nat.odd_mul; auto).
    assert (EG : lay_get (lay_of cap (map cpair prs ++ [spair cz]) (2 * length prs + 1) w g) (length prs) = Ok (spair cz)).
    { replace (length prs) with (length (map cpair prs)) at 2 by apply map_length. apply lay_get_ok. rewrite map_length, div2_odd. lia. }
    rewrite EG. cbn [bind]. change (pole1 (spair cz)) with (RtoC (fst cz)). change (zero1 (spair cz)) with (snd cz).
    destruct (bo_o _ _ _ _ BO cz Eo) as [A [B D]].
    rewrite (proj1 (rts_ok (Fin (RtoC (fst cz))) ltac:(simpl; lra))). cbn [bind]. rewrite (proj1 (rts_ok (snd cz) B)). cbn [bind].
    unfold lay_insert_pair, lay_of. cbn [num_poles pairs lay_w lay_gain andb]. rewrite Nat.even_mul. cbn [Nat.even orb].
    replace (2 * (0 + 2 * length prs) / 2)%nat with (length (flat_map (dband tr) prs)) by (rewrite dband_len, div2_even; lia).
    rewrite repeat_sub by (rewrite dband_len; lia). rewrite store_app_len. cbn [bind]. unfold lay_set_gain. cbn [num_poles pairs lay_w lay_gain].
    f_equal. rewrite app_length. cbn [length]. f_equal; [lia|]. rewrite <- app_assoc. reflexivity.
  - rewrite Nat.add_0_r. replace (Nat.odd (2 * length prs)) with false by (rewrite Nat.odd_mul; auto). cbn [bind].
    rewrite app_nil_r. reflexivity.
Qed.

(** The cascade and its squared magnitude relative to the reference point. *)
Definition sections_ok (c : cascade) (n cap : nat) : Prop :=
  num_stage c = n /\ length (stages c) = cap /\ Forall (fun q => bq_stability q = true /\ at_rest q) (used c).

Lemma dlist_good p : In p (dlist tr prs od) -> exists q, make_biquad p = Ok q /\ good q.
Proof.
  intros Hp. unfold dlist in Hp. apply in_app_or in Hp. destruct Hp as [Hp|Hp].
  - apply in_flat_map in Hp. destruct Hp as [cz [HI Hp]]. destruct (bo_p _ _ _ _ BO cz HI) as [A [B [D _]]]. destruct (roots_in (fst cz) A) as [I1 I2].
    destruct Hp as [<-|[<-|[]]]; [pose proof (bsec_make cz fst (or_introl eq_refl) HI) as X|pose proof (bsec_make cz snd (or_intror eq_refl) HI) as X];
      (eexists; split; [exact X|]); (split; [apply gen_stable; try apply rp_conj; rewrite ?Cmod_conj; auto|split; [reflexivity|split; reflexivity]]).
  - remember od as o eqn:E in Hp. destruct o as [cz|]; [|destruct Hp]. symmetry in E. destruct Hp as [<-|[]]. destruct (dreal_make cz E) as [q [G [GQ _]]]. exists q. auto.
Qed.
Lemma band_cascade checks cap n w0 g0 w' g :
  (2 * length prs + ocount od = n)%nat -> (1 <= n <= cap)%nat -> checks = false \/ od = None ->
  (forall cz, In cz (flat prs od) -> poly N M (snd cz) (Cexp w') <> C0) ->
  exists c, bind (band_layout checks tr adj (analog cap prs od w0 g0) (lay_new (2 * cap)))
      (fun d => make_cascade (2 * cap) (lay_set_gain (lay_set_w d w') g)) = Ok c /\
    sections_ok c n cap /\
    0 < rprod (map (bfac b N M (Cexp w')) (flat prs od)) /\
    forall z, Cmod z = 1 -> exists h, cas_response c z h /\
      Cnorm2 h = g * g * (rprod (map (bfac b N M z) (flat prs od)) / rprod (map (bfac b N M (Cexp w')) (flat prs od))).
Proof.
  intros Hn Hc HK HR. rewrite band_layout_ok by (auto; lia). cbn [bind].
  change (lay_set_gain (lay_set_w (lay_of (2 * cap) (dlist tr prs od) (2 * (2 * length prs + ocount od)) 0 g0) w') g)
    with (lay_of (2 * cap) (dlist tr prs od) (2 * (2 * length prs + ocount od)) w' g).
  rewrite Hn.
  pose proof dlist_good as HB.
  assert (HP : 0 < rprod (map (bfac b N M (Cexp w')) (flat prs od))).
  { apply rprod_pos. intros a Ha. apply in_map_iff in Ha. destruct Ha as [cz [<- HI]]. destruct (flat_props cz HI) as [A B].
    apply Rmult_lt_0_compat; [|apply Rinv_0_lt_compat; apply gnum_nz; auto; apply Cmod_exp].
    apply Rmult_lt_0_compat; [apply C_neq0, HR; auto|apply Rinv_0_lt_compat, C_neq0, lead_nz; auto]. }
  assert (NZ : sections_at (Cexp w') <> C0).
  { intros E. pose proof (band_mag (Cexp w') (Cmod_exp w')) as X. rewrite E in X. replace (Cnorm2 C0) with 0 in X by (unfold Cnorm2; simpl; ring). lra. }
  assert (PN : forall l, cprod l <> C0 -> forall x, In x l -> x <> C0).
  { induction l as [|a l IH]; intros HL x Hx; [destruct Hx|]. simpl in HL. destruct Hx as [<-|Hx].
    - intros E; apply HL; rewrite E; ring.
    - apply IH; auto. intros E; apply HL; rewrite E; ring. }
  destruct (make_cascade_ok mkb (2 * cap) (dlist tr prs od) (2 * n) w' g) as [c [E [Hnum [Hl [Hst Hr]]]]].
  - intros E. pose proof dlist_len as X. rewrite E in X. cbn [length] in X. lia.
  - rewrite dlist_len, div2_odd. auto.
  - lia.
  - intros p Hp. destruct (HB p Hp) as [q [E G]]. unfold mkb at 1 2. rewrite E. split; auto. split; auto.
    apply (PN _ NZ). apply in_map_iff. exists p. auto.
  - exists c. split; [exact E|]. split; [|split; [auto|]].
    + split; [rewrite Hnum, dlist_len; auto|]. split; [rewrite Hl, div2_odd; auto|exact Hst].
    + intros z Hz. eexists. split; [apply Hr; auto|]. fold (sections_at z). fold (sections_at (Cexp w')).
      rewrite Cnorm2_mul, Cnorm2_RtoC, (band_mag z Hz), <- (band_mag (Cexp w') (Cmod_exp w')), <- Cmod_sqr.
      assert (Cmod (sections_at (Cexp w')) <> 0) by (apply Rgt_not_eq, Cmod_pos; auto). field. auto.
Qed.

(** With a zero at the reference the gain cannot be set. *)
Lemma band_cascade_zero checks cap n w0 g0 w' g :
  (2 * length prs + ocount od = n)%nat -> (1 <= n <= cap)%nat -> checks = false \/ od = None ->
  rprod (map (bfac b N M (Cexp w')) (flat prs od)) = 0 ->
  bind (band_layout checks tr adj (analog cap prs od w0 g0) (lay_new (2 * cap)))
      (fun d => make_cascade (2 * cap) (lay_set_gain (lay_set_w d w') g)) = NonFinite.
Proof.
  intros Hn Hc HK HR. rewrite band_layout_ok by (auto; lia). cbn [bind].
  change (lay_set_gain (lay_set_w (lay_of (2 * cap) (dlist tr prs od) (2 * (2 * length prs + ocount od)) 0 g0) w') g)
    with (lay_of (2 * cap) (dlist tr prs od) (2 * (2 * length prs + ocount od)) w' g).
  rewrite Hn. rewrite <- (band_mag _ (Cmod_exp w')) in HR. apply Cnorm2_0 in HR.
  pose proof dlist_len as DL. set (ds := dlist tr prs od) in *.
  assert (HM : forall p, In p ds -> make_biquad p = Ok (mkb p) /\ good (mkb p)).
  { intros p Hp. destruct (dlist_good p Hp) as [q [E G]]. unfold mkb. rewrite E. auto. }
  unfold make_cascade. change (num_poles (lay_of (2 * cap) ds (2 * n) w' g)) with (2 * n)%nat. rewrite !div2_odd, <- Hn, <- DL.
  pose proof (push_biquads_ok mkb (2 * cap) (2 * length ds) w' g ds [] (cas_new cap) (fun p Hp => proj1 (HM p Hp)) ltac:(cbn [length app]; rewrite div2_even; lia)) as E.
  cbn [length app] in E. rewrite E. rewrite pushes_new by (rewrite map_length; lia). cbn [bind].
  assert (HG : Forall good (map mkb ds)).
  { apply Forall_forall. intros q Hq. apply in_map_iff in Hq. destruct Hq as [p [<- Hp]]. apply HM, Hp. }
  change (lay_w (lay_of (2 * cap) ds (2 * length ds) w' g)) with w'.
  erewrite make_response_ok; [|cbn [num_stage]; reflexivity|cbn [stages]; reflexivity|exact HG]. cbn [bind].
  rewrite map_map. change (cprod (map (fun p => H (mkb p) (Cexp w')) ds)) with (sections_at (Cexp w')). rewrite HR, Cmod_0.
  unfold rdiv. destruct (Req_EM_T 0 0); [reflexivity|lra].
Qed.

(** ** The analogue frequency seen at a point *)
Definition kfac (cz : C * ecomplex) : R :=
  match snd cz with
  | Inf => Cnorm2 (RtoC b - fst cz)%C / Cnorm2 (fst cz)
  | Fin d => Cnorm2 (RtoC b - fst cz)%C / Cnorm2 (RtoC b - d)%C
  end.
Lemma cneg_nz c : Re c < 0 -> 0 < Cnorm2 c.
Proof. intros Hc. apply C_neq0. intros E. rewrite E in Hc. simpl in Hc. lra. Qed.
Lemma kfac_pos cz : Re (fst cz) < 0 -> lhp (snd cz) -> 0 < kfac cz.
Proof.
  intros A B. pose proof (lead_nz (Fin (fst cz)) ltac:(simpl; lra)) as X. simpl in X. apply C_neq0 in X. unfold kfac.
  pose proof (lead_nz _ B) as Y. apply C_neq0 in Y.
  destruct (snd cz); apply Rmult_lt_0_compat; auto; apply Rinv_0_lt_compat; auto. apply cneg_nz; auto.
Qed.
Lemma bfac_at z x cz : N z = (RtoC x * Ci * M z)%C -> M z <> C0 -> Re (fst cz) < 0 -> lhp (snd cz) -> bfac b N M z cz = kfac cz * afac x cz.
Proof.
  intros EN HM A B. destruct cz as [c zt]. unfold bfac, gnum, kfac, afac. cbn [fst snd] in *.
  assert (P1 : 0 < Cnorm2 (M z)) by (apply C_neq0; auto). pose proof (cneg_nz c A) as P2.
  pose proof (lead_nz (Fin c) ltac:(simpl; lra)) as X. simpl in X. apply C_neq0 in X.
  assert (P3 : 0 < Cnorm2 (RtoC x * Ci - c)%C).
  { apply C_neq0. intros E. apply (f_equal Re) in E. simpl in E. lra. }
  assert (F : forall d, (N z - d * M z)%C = (M z * (RtoC x * Ci - d))%C) by (intros d; rewrite EN; ring).
  destruct zt as [d|]; cbn [poly lead].
  - pose proof (lead_nz (Fin d) B) as Y. simpl in Y. apply C_neq0 in Y. rewrite !F, !Cnorm2_mul. field. lra.
  - rewrite F, Cnorm2_mul. replace (Cnorm2 C1) with 1 by (unfold Cnorm2; simpl; ring). field. lra.
Qed.
Lemma bfac_at_inf z c d : M z = C0 -> N z <> C0 -> Re c < 0 -> Re d <= 0 -> bfac b N M z (c, Fin d) = kfac (c, Fin d).
Proof.
  intros EM HN A B. unfold bfac, gnum, kfac. cbn [fst snd poly lead]. rewrite EM.
  assert (F : forall e, (N z - e * C0)%C = N z) by (intros; ring). rewrite !F.
  pose proof (C_neq0 _ HN). pose proof (lead_nz (Fin c) ltac:(simpl; lra)) as X. simpl in X. apply C_neq0 in X.
  pose proof (lead_nz (Fin d) B) as Y. simpl in Y. apply C_neq0 in Y. field. lra.
Qed.
Lemma bfac_zero z c : M z = C0 -> bfac b N M z (c, Inf) = 0.
Proof.
  intros EM. unfold bfac, gnum at 1. cbn [fst snd poly lead]. rewrite EM. replace (Cnorm2 C0) with 0 by (unfold Cnorm2; simpl; ring).
  unfold Rdiv. ring.
Qed.

Lemma prod_at z x : N z = (RtoC x * Ci * M z)%C -> M z <> C0 ->
  rprod (map (bfac b N M z) (flat prs od)) = rprod (map kfac (flat prs od)) * rprod (map (afac x) (flat prs od)).
Proof.
  intros EN HM. rewrite <- rprod_map_mult. apply rprod_map_ext. intros cz HI. destruct (flat_props cz HI). apply bfac_at; auto.
Qed.
Lemma prod_k_pos : 0 < rprod (map kfac (flat prs od)).
Proof. apply rprod_pos. intros a Ha. apply in_map_iff in Ha. destruct Ha as [cz [<- HI]]. destruct (flat_props cz HI). apply kfac_pos; auto. Qed.
Lemma prod_at_inf z : M z = C0 -> N z <> C0 -> all_fin (flat prs od) ->
  rprod (map (bfac b N M z) (flat prs od)) = rprod (map kfac (flat prs od)).
Proof.
  intros EM HN AF. apply rprod_map_ext. intros cz HI. destruct (flat_props cz HI). destruct (AF cz HI) as [d [E D]].
  destruct cz as [c zt]; cbn [fst snd] in *. subst zt. apply bfac_at_inf; auto; lra.
Qed.
Lemma prod_zero z : M z = C0 -> (exists cz, In cz (flat prs od) /\ snd cz = Inf) -> rprod (map (bfac b N M z) (flat prs od)) = 0.
Proof.
  intros EM [cz [HI E]]. induction (flat prs od) as [|a l IH]; [destruct HI|]. cbn [map rprod]. destruct HI as [->|HI].
  - destruct cz as [c zt]; cbn [snd] in E; subst zt. rewrite bfac_zero by auto. ring.
  - rewrite IH by auto. ring.
Qed.
End Map.
