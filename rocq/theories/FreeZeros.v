(** Designs whose zeros may lie in the right half plane, as long as the bilinear map does not send one to infinity:
    the lemmas of BilinearProofs and ButterProofs without the condition on the zeros. *)
From Coq Require Import Psatz Lia List.
From Verif Require Import RealBase RealBaseProofs BaseProofs Cplx CplxProofs PolyProofs BiquadModel BiquadSpec BiquadProofs.
From Verif Require Import StabilityProofs CascadeProofs DesignModel DesignSpec DesignProofs DesignProofs2 LayoutModel LayoutProofs BilinearProofs ButterProofs ButterShelfProofs.
Import ListNotations.
Local Open Scope R_scope.

Definition fine (f : R) (c : ecomplex) : Prop := match c with Inf => True | Fin c => (C1 - RtoC f * c)%C <> C0 end.
Lemma fine_conj f c : fine f c -> fine f (econj c).
Proof.
  destruct c as [c|]; auto. simpl. intros H E. apply H. transitivity (Cconj (C1 - RtoC f * Cconj c))%C; [apply C_eq; simpl; ring|]. rewrite E. apply C_eq; simpl; ring.
Qed.
Lemma lp_fine f c : fine f c -> lp_transform f c = Ok (Tb 1 f c).
Proof.
  intros Hc. destruct c as [c|]; simpl in *.
  - rewrite !Cscal_RtoC. rewrite cdiv_ok by auto. f_equal. change (RtoC 1) with C1. field. auto.
  - f_equal.
Qed.
Lemma hp_fine f c : fine f c -> hp_transform f c = Ok (Tb (-1) f c).
Proof.
  intros Hc. destruct c as [c|]; simpl in *.
  - rewrite !Cscal_RtoC. rewrite cdiv_ok by auto. f_equal. replace (RtoC (-1)) with (- C1)%C by (apply C_eq; simpl; ring). field. auto.
  - f_equal. apply C_eq; simpl; ring.
Qed.
(** The image of a finite point is never the reference point. *)
Lemma Tb_ref s f c : s = 1 \/ s = -1 -> (C1 - RtoC f * c)%C <> C0 -> RtoC (- s) <> Tb s f (Fin c).
Proof.
  intros Hs N E. simpl in E. assert (X : (RtoC (- s) * RtoC s * (C1 - RtoC f * c) = C1 + RtoC f * c)%C).
  { rewrite E. assert (SS : (RtoC s * RtoC s)%C = C1) by (rewrite <- RtoC_mul; destruct Hs as [->| ->]; apply C_eq; simpl; ring).
    transitivity ((RtoC s * RtoC s) * (C1 + RtoC f * c))%C; [field; auto|]. rewrite SS. ring. }
  assert (S2 : (RtoC (- s) * RtoC s)%C = (- C1)%C) by (destruct Hs as [->| ->]; apply C_eq; simpl; ring). rewrite S2 in X. apply (f_equal Re) in X. simpl in X. lra.
Qed.

Record free_ok (s f : R) (prs : list (C * ecomplex)) (od : option (R * ecomplex)) : Prop := {
  fo_s : s = 1 \/ s = -1;
  fo_f : 0 < f;
  fo_p : forall cz, In cz prs -> Re (fst cz) < 0 /\ fine f (snd cz) /\ (snd cz = Inf \/ Im (fst cz) <> 0);
  fo_o : forall cz, od = Some cz -> fst cz < 0 /\ fine f (snd cz) /\ (forall c, snd cz = Fin c -> Im c = 0)
}.

Section Design.
Variables (s f : R) (prs : list (C * ecomplex)) (od : option (R * ecomplex)).
Hypothesis OK : free_ok s f prs od.
Let T := Tb s f.
Lemma free_sq : s * s = 1. Proof. destruct (fo_s _ _ _ _ OK) as [->| ->]; lra. Qed.

Lemma free_im c : (forall x, c = Fin x -> Im x = 0) -> Im (T c) = 0.
Proof.
  intros HI. assert (E : econj c = c).
  { destruct c as [c|]; auto. simpl. f_equal. apply C_eq; simpl; auto. rewrite (HI c eq_refl). ring. }
  pose proof (Tb_conj s f c) as X. rewrite E in X. fold T in X. apply (f_equal Im) in X. simpl in X. lra.
Qed.

Lemma free_pair cz : In cz prs -> make_biquad (dpair T cz) = Ok (pair_biquad (T (Fin (fst cz))) (T (econj (snd cz)))).
Proof.
  intros HI. destruct (fo_p _ _ _ _ OK cz HI) as [Hre [Hz Hn]]. unfold make_biquad, dpair. cbn [zero1 zero2 pole1 pole2].
  assert (X : single_pole (mkPz (T (Fin (fst cz))) (Fin (T (econj (snd cz)))) (Cconj (T (Fin (fst cz)))) (Fin (Cconj (T (econj (snd cz)))))) = false).
  { unfold single_pole; cbn [pole2 zero2 eis_zero]. pose proof free_sq as ss. destruct Hn as [->|Hn].
    - rewrite (is_zero_false (Cconj (T (econj Inf)))); [apply Bool.andb_false_r|]. simpl. intros E. apply (f_equal Re) in E. simpl in E. nra.
    - rewrite (is_zero_false (Cconj (T (Fin (fst cz))))); auto. intros E.
      assert (E2 : T (Fin (fst cz)) = C0) by (rewrite <- (Cconj_invol (T (Fin (fst cz)))), E; apply C_eq; simpl; ring).
      unfold T in E2. simpl in E2. pose proof (fo_f _ _ _ _ OK) as Hf.
      assert (NZ : (C1 - RtoC f * fst cz)%C <> C0) by (apply one_minus_neq; lra).
      assert (E3 : (C1 + RtoC f * fst cz)%C = C0).
      { transitivity (RtoC s * (RtoC s * ((C1 + RtoC f * fst cz) / (C1 - RtoC f * fst cz))) * (C1 - RtoC f * fst cz))%C.
        - replace (RtoC s * (RtoC s * ((C1 + RtoC f * fst cz) / (C1 - RtoC f * fst cz))))%C
            with (RtoC (s * s) * ((C1 + RtoC f * fst cz) / (C1 - RtoC f * fst cz)))%C by (rewrite RtoC_mul; ring).
          rewrite ss. change (RtoC 1) with C1. field. auto.
        - rewrite E2. ring. }
      apply (f_equal Im) in E3. simpl in E3. assert (f * Im (fst cz) = 0) by lra. nra. }
  rewrite X. apply bq_pairs_conj.
Qed.

Lemma free_single cz : od = Some cz -> make_biquad (dsingle T cz) = Ok (single_biquad (Re (T (Fin (RtoC (fst cz))))) (Re (T (snd cz)))).
Proof.
  intros E. destruct (fo_o _ _ _ _ OK cz E) as [Hre [Hz Hn]]. unfold make_biquad, dsingle. cbn [zero1 zero2 pole1 pole2].
  unfold single_pole; cbn [pole2 zero2 eis_zero]. rewrite is_zero_C0. cbn [andb].
  replace (T (Fin (RtoC (fst cz)))) with (RtoC (Re (T (Fin (RtoC (fst cz)))))) at 1.
  - replace (T (snd cz)) with (RtoC (Re (T (snd cz)))) at 1; [apply bq_single|].
    apply C_eq; auto. simpl. symmetry. apply free_im. auto.
  - apply C_eq; auto. cbn [Im RtoC snd]. symmetry. apply free_im. intros x Hx; injection Hx as <-. reflexivity.
Qed.

Lemma free_pole cz : In cz (flat prs od) -> Cmod (T (Fin (fst cz))) < 1.
Proof.
  intros HI. apply Tb_stable; [apply (fo_s _ _ _ _ OK)|apply (fo_f _ _ _ _ OK)|].
  unfold flat in HI. apply in_app_or in HI. destruct HI as [HI|HI].
  - apply in_flat_map in HI. destruct HI as [x [Hx [<-|[<-|[]]]]]; simpl; apply (fo_p _ _ _ _ OK x Hx).
  - remember od as o eqn:E in HI. destruct o as [x|]; [|destruct HI]. destruct HI as [<-|[]]. simpl. apply (fo_o _ _ _ _ OK x). auto.
Qed.

(** The product of the squared stage magnitudes. *)
Lemma free_prod z : Cmod z = 1 ->
  Cnorm2 (cprod (map (fun p => H (mkb p) z) (map (dpair T) prs ++ olist (dsingle T) od))) = rprod (map (fac T z) (flat prs od)).
Proof.
  intros Hz. rewrite map_app, cprod_app, Cnorm2_mul. unfold flat. rewrite map_app, rprod_app. f_equal.
  - assert (HP : forall cz, In cz prs -> In cz prs) by auto. revert HP. generalize prs at 1 3 4. intros l HP.
    induction l as [|cz l IH]; [unfold Cnorm2; simpl; ring|]. cbn [map cprod flat_map app rprod]. rewrite Cnorm2_mul, IH by (intros; apply HP; right; auto).
    unfold mkb at 1. rewrite free_pair by (apply HP; left; auto). rewrite pair_mag; auto.
    2:{ apply free_pole. unfold flat. apply in_or_app. left. apply in_flat_map. exists cz. split; [apply HP; left; auto|left; auto]. }
    unfold fac. unfold cz_conj. cbn [fst snd]. unfold T. rewrite !Tb_conj. rewrite Cconj_invol.
    change (Fin (Cconj (fst cz))) with (econj (Fin (fst cz))). rewrite Tb_conj. unfold Rdiv. ring.
  - remember od as o eqn:E in |- *. destruct o as [cz|]; [|unfold Cnorm2; simpl; ring]. symmetry in E. cbn [olist map cprod rprod].
    rewrite Cnorm2_mul. unfold mkb. rewrite (free_single cz) by auto.
    assert (EP : RtoC (Re (T (Fin (RtoC (fst cz))))) = T (Fin (RtoC (fst cz)))).
    { apply C_eq; auto. cbn [Im RtoC snd]. symmetry. apply free_im. intros x Hx; injection Hx as <-. reflexivity. }
    assert (EZ : RtoC (Re (T (snd cz))) = T (snd cz)).
    { apply C_eq; auto. cbn [Im RtoC snd]. symmetry. apply free_im. apply (fo_o _ _ _ _ OK cz E). }
    rewrite single_mag; auto.
    + rewrite EP, EZ. unfold fac. cbn [fst snd]. unfold Cnorm2; simpl. ring.
    + rewrite <- Cmod_RtoC, EP. apply (free_pole (RtoC (fst cz), snd cz)). unfold flat. apply in_or_app. right. rewrite E. left. reflexivity.
Qed.

(** The cascade built from the layout. *)
Lemma free_cascade checks tr cap w w' g : 
  (forall c, fine f c -> tr c = Ok (T c)) ->
  (1 <= 2 * length prs + ocount od <= cap)%nat ->
  (forall cz, In cz (flat prs od) -> Cexp w' <> T (snd cz)) ->
  exists c, bind (transform_layout checks tr w' (analog cap prs od w g) (lay_new cap)) (make_cascade cap) = Ok c /\
    num_stage c = (length prs + ocount od)%nat /\ length (stages c) = ((cap + 1) / 2)%nat /\
    Forall (fun q => bq_stability q = true /\ at_rest q) (used c) /\
    forall z, Cmod z = 1 -> cas_response c z
       (Cmul (RtoC (g / Cmod (cprod (map (fun p => H (mkb p) (Cexp w')) (map (dpair T) prs ++ olist (dsingle T) od)))))
             (cprod (map (fun p => H (mkb p) z) (map (dpair T) prs ++ olist (dsingle T) od)))).
Proof.
  intros HT HC HR. rewrite (transform_layout_ok checks tr T).
  - cbn [bind]. destruct (make_cascade_ok mkb cap (map (dpair T) prs ++ olist (dsingle T) od) (2 * length prs + ocount od) w' g)
      as [c [E [Hn [Hl [Hst Hr]]]]].
    + destruct prs; [destruct od; [discriminate|simpl in HC; lia]|discriminate].
    + rewrite app_length, map_length. destruct od; cbn [olist ocount length].
      * replace (2 * length prs + 1 + 1)%nat with ((length prs + 1) * 2)%nat by lia. rewrite Nat.div_mul; lia.
      * rewrite !Nat.add_0_r. rewrite div2_odd. reflexivity.
    + lia.
    + intros p Hp. apply in_app_or in Hp.
      assert (Key : forall p q, make_biquad p = Ok q -> good q -> H q (Cexp w') <> C0 ->
          make_biquad p = Ok (mkb p) /\ good (mkb p) /\ H (mkb p) (Cexp w') <> C0).
      { intros p0 q E0 G0 N0. unfold mkb. rewrite E0. auto. }
      destruct Hp as [Hp|Hp].
      * apply in_map_iff in Hp. destruct Hp as [cz [<- HI]].
        assert (HF1 : In cz (flat prs od)) by (apply in_or_app; left; apply in_flat_map; exists cz; split; [auto|left; auto]).
        assert (HF2 : In (cz_conj cz) (flat prs od)) by (apply in_or_app; left; apply in_flat_map; exists cz; split; [auto|right; left; auto]).
        pose proof (free_pole cz HF1) as Hst.
        apply (Key _ _ (free_pair cz HI)).
        { split; [apply pair_stable; auto|split; [reflexivity|split; reflexivity]]. }
        intros E. assert (N : Cnorm2 (H (pair_biquad (T (Fin (fst cz))) (T (econj (snd cz)))) (Cexp w')) = 0) by (rewrite E; unfold Cnorm2; simpl; ring).
        unfold H in N. pose proof (stable_den _ _ (pair_stable _ (T (econj (snd cz))) Hst) (Cmod_exp w')) as HD.
        rewrite Cnorm2_div in N by auto. rewrite pair_num in N. rewrite Cnorm2_mul in N.
        assert (P1 : 0 < Cnorm2 (Cexp w' - T (econj (snd cz)))%C).
        { apply C_neq0. intros Z. apply (HR _ HF2). simpl. transitivity (Cexp w' - (Cexp w' - T (econj (snd cz))))%C; [rewrite Z|]; ring. }
        assert (P2 : 0 < Cnorm2 (Cexp w' - Cconj (T (econj (snd cz))))%C).
        { apply C_neq0. intros Z. apply (HR _ HF1). unfold T in *. rewrite Tb_conj, Cconj_invol in Z.
          transitivity (Cexp w' - (Cexp w' - Tb s f (snd cz)))%C; [rewrite Z|]; ring. }
        pose proof (C_neq0 _ HD) as P3.
        assert (0 < Cnorm2 (Cexp w' - T (econj (snd cz)))%C * Cnorm2 (Cexp w' - Cconj (T (econj (snd cz))))%C /
           Cnorm2 (tf_den (a1 (pair_biquad (T (Fin (fst cz))) (T (econj (snd cz))))) (a2 (pair_biquad (T (Fin (fst cz))) (T (econj (snd cz))))) (Cexp w'))); [|lra].
        apply Rmult_lt_0_compat; [apply Rmult_lt_0_compat; auto|apply Rinv_0_lt_compat; auto].
      * remember od as o eqn:Eo in Hp. destruct o as [cz|]; [|destruct Hp]. destruct Hp as [<-|[]]. symmetry in Eo.
        assert (HF1 : In (RtoC (fst cz), snd cz) (flat prs od)) by (apply in_or_app; right; rewrite Eo; left; auto).
        pose proof (free_pole _ HF1) as Hst. cbn [fst] in Hst.
        assert (EP : RtoC (Re (T (Fin (RtoC (fst cz))))) = T (Fin (RtoC (fst cz)))).
        { apply C_eq; auto. cbn [Im RtoC snd]. symmetry. apply free_im. intros x Hx; injection Hx as <-. reflexivity. }
        assert (EZ : RtoC (Re (T (snd cz))) = T (snd cz)).
        { apply C_eq; auto. cbn [Im RtoC snd]. symmetry. apply free_im. apply (fo_o _ _ _ _ OK cz Eo). }
        assert (SB : Rabs (Re (T (Fin (RtoC (fst cz))))) < 1) by (rewrite <- Cmod_RtoC, EP; auto).
        apply (Key _ _ (free_single cz Eo)).
        { split; [apply single_stable; auto|split; [reflexivity|split; reflexivity]]. }
        intros E. assert (N : Cnorm2 (H (single_biquad (Re (T (Fin (RtoC (fst cz))))) (Re (T (snd cz)))) (Cexp w')) = 0) by (rewrite E; unfold Cnorm2; simpl; ring).
        rewrite single_mag in N by (auto; apply Cmod_exp). rewrite EP, EZ in N. unfold dist2 in N.
        assert (P1 : 0 < Cnorm2 (Cexp w' - T (snd cz))%C).
        { apply C_neq0. intros Z. apply (HR _ HF1). cbn [snd]. transitivity (Cexp w' - (Cexp w' - T (snd cz)))%C; [rewrite Z|]; ring. }
        assert (P3 : 0 < Cnorm2 (Cexp w' - T (Fin (RtoC (fst cz))))%C).
        { apply C_neq0. intros Z. assert (Cexp w' = T (Fin (RtoC (fst cz)))).
          { transitivity (Cexp w' - (Cexp w' - T (Fin (RtoC (fst cz)))))%C; [rewrite Z|]; ring. }
          match goal with E0 : Cexp w' = _ |- _ => rewrite <- E0, Cmod_exp in Hst end; lra. }
        assert (0 < Cnorm2 (Cexp w' - T (snd cz))%C / Cnorm2 (Cexp w' - T (Fin (RtoC (fst cz))))%C); [|lra].
        apply Rmult_lt_0_compat; [auto|apply Rinv_0_lt_compat; auto].
    + exists c. split; [exact E|]. split; [rewrite Hn, app_length, map_length; destruct od; reflexivity|]. split; [exact Hl|]. split; [exact Hst|]. exact Hr.
  - intros cz Hcz. destruct (fo_p _ _ _ _ OK cz Hcz) as [Hre [Hz _]]. split; apply HT.
    + apply one_minus_neq; [apply (fo_f _ _ _ _ OK)|lra].
    + apply fine_conj. exact Hz.
  - intros cz Hcz. destruct (fo_o _ _ _ _ OK cz Hcz) as [Hre [Hz HI]]. split; [|split; [|split]].
    + apply HT. apply one_minus_neq; [apply (fo_f _ _ _ _ OK)|simpl; lra].
    + apply HT. auto.
    + apply free_im. intros x Hx; injection Hx as <-. reflexivity.
    + apply free_im. auto.
  - destruct prs; simpl in *; lia.
Qed.

(** Magnitude relative to the reference point. *)
Lemma free_relative (c : cascade) w' g z (h : C) : Cmod z = 1 ->
  (forall cz, In cz (flat prs od) -> Cexp w' <> T (snd cz)) ->
  h = (Cmul (RtoC (g / Cmod (cprod (map (fun p => H (mkb p) (Cexp w')) (map (dpair T) prs ++ olist (dsingle T) od)))))
             (cprod (map (fun p => H (mkb p) z) (map (dpair T) prs ++ olist (dsingle T) od)))) ->
  Cnorm2 h = g * g * (rprod (map (fac T z) (flat prs od)) / rprod (map (fac T (Cexp w')) (flat prs od))) /\
  0 < rprod (map (fac T (Cexp w')) (flat prs od)).
Proof.
  intros Hz HR ->. 
  assert (P : 0 < rprod (map (fac T (Cexp w')) (flat prs od))).
  { apply rprod_pos. intros a Ha. apply in_map_iff in Ha. destruct Ha as [cz [<- HI]]. unfold fac, dist2.
    apply Rmult_lt_0_compat; [|apply Rinv_0_lt_compat]; apply C_neq0; intros Z.
    - apply (HR _ HI). transitivity (Cexp w' - (Cexp w' - T (snd cz)))%C; [rewrite Z|]; ring.
    - pose proof (free_pole cz HI) as Hst. assert (E : Cexp w' = T (Fin (fst cz))).
      { transitivity (Cexp w' - (Cexp w' - T (Fin (fst cz))))%C; [rewrite Z|]; ring. }
      rewrite <- E, Cmod_exp in Hst. lra. }
  split; auto. rewrite Cnorm2_mul, Cnorm2_RtoC. rewrite (free_prod z Hz).
  pose proof (free_prod (Cexp w') (Cmod_exp w')) as M. rewrite <- Cmod_sqr in M. rewrite <- M in *.
  set (X := Cmod (cprod (map (fun p => H (mkb p) (Cexp w')) (map (dpair T) prs ++ olist (dsingle T) od)))) in *.
  clearbody X. assert (X <> 0) by (intros E; rewrite E in P; lra). field. auto.
Qed.
End Design.

Lemma free_fac s f c zt z t : s = 1 \/ s = -1 -> 0 < f -> Re c < 0 -> (C1 - RtoC f * zt)%C <> C0 ->
  (RtoC s * z - C1 = RtoC t * Ci * (RtoC s * z + C1))%C -> (RtoC s * z + C1)%C <> C0 ->
  fac (Tb s f) z (c, Fin zt) = fac (Tb s f) (RtoC (- s)) (c, Fin zt) *
     (Cnorm2 (RtoC (t / f) * Ci - zt)%C / Cnorm2 (RtoC (t / f) * Ci - c)%C).
Proof.
  intros Hs Hf Hc Hzt Ez NZ. unfold fac, dist2. cbn [fst snd].
  assert (ss : s * s = 1) by (destruct Hs as [->| ->]; lra).
  assert (NS : forall a b, Cnorm2 (RtoC s * a - RtoC s * b)%C = Cnorm2 (a - b)%C).
  { intros a b. replace (RtoC s * a - RtoC s * b)%C with (RtoC s * (a - b))%C by ring. rewrite Cnorm2_mul, Cnorm2_RtoC, ss. ring. }
  assert (SS : (RtoC s * RtoC s)%C = C1) by (rewrite <- RtoC_mul, ss; reflexivity).
  set (z' := (RtoC s * z)%C) in *.
  assert (Z : z = (RtoC s * z')%C) by (unfold z'; transitivity ((RtoC s * RtoC s) * z)%C; [rewrite SS|]; ring).
  assert (D2 : forall c, (C1 - RtoC f * c)%C <> C0 -> Cnorm2 (z - Tb s f (Fin c))%C = Cnorm2 (z' + C1)%C * (f * f * Cnorm2 (RtoC (t / f) * Ci - c)%C) / Cnorm2 (C1 - RtoC f * c)%C).
  { intros d OM.
    rewrite Z. simpl. rewrite NS. rewrite <- Cnorm2_RtoC, <- !Cnorm2_mul, <- Cnorm2_div by auto. f_equal.
    transitivity (((z' - C1) - RtoC f * d * (z' + C1)) / (C1 - RtoC f * d))%C; [field; auto|]. rewrite Ez.
    replace (RtoC t) with (RtoC f * RtoC (t / f))%C by (rewrite <- RtoC_mul; f_equal; field; lra). field. auto. }
  assert (D4 : forall c, (C1 - RtoC f * c)%C <> C0 -> Cnorm2 (RtoC (- s) - Tb s f (Fin c))%C = 4 / Cnorm2 (C1 - RtoC f * c)%C).
  { intros d OM.
    replace (RtoC (- s)) with (RtoC s * (- C1))%C at 1 by (apply C_eq; simpl; ring). simpl. rewrite NS.
    replace 4 with (Cnorm2 (- RtoC 2)%C) by (unfold Cnorm2; simpl; ring).
    rewrite <- Cnorm2_div by auto. f_equal. replace (RtoC 2) with (C1 + C1)%C by (apply C_eq; simpl; ring). field. auto. }
  assert (OM : (C1 - RtoC f * c)%C <> C0) by (apply one_minus_neq; lra).
  rename Hzt into OZ. rewrite !D2, !D4 by auto.
  pose proof (C_neq0 _ OM). pose proof (C_neq0 _ OZ). pose proof (C_neq0 _ NZ).
  assert (0 < Cnorm2 (RtoC (t / f) * Ci - c)%C).
  { apply C_neq0. intros E. apply (f_equal Re) in E. simpl in E. ring_simplify in E. lra. }
  field. repeat split; lra.
Qed.


(** Finite zeros: unit gain at z = -s. *)
Lemma free_mag s f prs od w' g z t : free_ok s f prs od -> (forall cz, In cz (flat prs od) -> exists zt, snd cz = Fin zt /\ (C1 - RtoC f * zt)%C <> C0 /\ Re (fst cz) < 0) ->
  Cexp w' = RtoC (- s) -> Cmod z = 1 ->
  (RtoC s * z - C1 = RtoC t * Ci * (RtoC s * z + C1))%C -> (RtoC s * z + C1)%C <> C0 ->
  Cnorm2 (RtoC (g / Cmod (stages_of s f prs od (Cexp w'))) * stages_of s f prs od z)%C =
    g * g * rprod (map (afac (t / f)) (flat prs od)).
Proof.
  intros OK AI Ew Hz Ez NZ.
  assert (HR : forall cz, In cz (flat prs od) -> Cexp w' <> Tb s f (snd cz)).
  { intros cz HI. destruct (AI _ HI) as [zt [E1 [E2 _]]]. rewrite E1, Ew. apply Tb_ref; [apply (fo_s _ _ _ _ OK)|exact E2]. }
  destruct (free_relative s f prs od OK (cas_new 0) w' g z _ Hz HR eq_refl) as [E P].
  unfold stages_of. rewrite E. f_equal.
  rewrite (rprod_map_ext (fac (Tb s f) z) (fun cz => fac (Tb s f) (Cexp w') cz * afac (t / f) cz)).
  - rewrite rprod_map_mult. field. lra.
  - intros [c zt'] HI. destruct (AI _ HI) as [zt [E1 [E2 E3]]]. cbn [snd] in E1. cbn [fst] in E3. subst zt'. rewrite Ew.
    apply free_fac; auto; [apply (fo_s _ _ _ _ OK)|apply (fo_f _ _ _ _ OK)].
Qed.

Lemma free_low checks cap n prs od fc fs : let T := tan (PI * (fc / fs)) in
  (0 < T -> free_ok 1 T prs od /\ forall cz, In cz (flat prs od) -> exists zt, snd cz = Fin zt /\ (C1 - RtoC T * zt)%C <> C0 /\ Re (fst cz) < 0) ->
  (2 * length prs + ocount od = n)%nat -> (1 <= n <= cap)%nat -> valid_freq fc fs ->
  exists c, bind (lp_transformer checks (fc / fs) (analog cap prs od PI 1) (lay_new cap)) (make_cascade cap) = Ok c /\ built cap n c /\
    forall f, 0 <= f -> 2 * f < fs -> exists h, cas_response c (at_freq f fs) h /\
       Cnorm2 h = rprod (map (afac (tan (PI * (f / fs)) / T)) (flat prs od)).
Proof.
  intros T OD HN Hn [V1 V2]. pose proof (norm_range fc fs V1 V2) as R1. destruct (tan_pos_range _ R1) as [TP CP].
  unfold lp_transformer. rewrite rtan_ok by lra. cbn [bind]. change (lay_w (analog cap prs od PI 1)) with PI.
  fold T in TP |- *. destruct (OD TP) as [OK AI].
  destruct (free_cascade 1 T prs od OK checks (lp_transform T) cap PI PI 1) as [c [E [E1 [E2 [E3 E4]]]]].
  - intros d Hd. apply lp_fine; auto.
  - lia.
  - intros cz HI. destruct (AI _ HI) as [zt [Z1 [Z2 _]]]. rewrite Z1, Cexp_PI. replace (-1) with (- (1)) by ring. apply Tb_ref; auto.
  - exists c. split; [exact E|]. split; [repeat split; auto; rewrite E1; apply count_half; auto|].
    assert (E4' : forall z, Cmod z = 1 -> cas_response c z (RtoC (1 / Cmod (stages_of 1 T prs od (Cexp PI))) * stages_of 1 T prs od z)%C) by exact E4.
    assert (EW : Cexp PI = RtoC (- (1))) by (rewrite Cexp_PI; f_equal; ring).
    intros f0 F1 F2. eexists. split; [apply E4'; apply Cmod_at_freq|].
    assert (R2 : 0 <= PI * (f0 / fs) < PI / 2).
    { destruct F1 as [F1|<-]; [pose proof (norm_range f0 fs F1 F2); lra|]. pose proof PI_RGT_0. replace (PI * (0 / fs)) with 0 by (unfold Rdiv; ring). lra. }
    rewrite at_freq_half by lra. destruct (low_side _ R2) as [L1 L2].
    rewrite (free_mag 1 T prs od PI 1 (Cexp (2 * (PI * (f0 / fs)))) (tan (PI * (f0 / fs)))); auto; [ring|apply Cmod_exp].
Qed.

Lemma free_high checks cap n prs od fc fs : let T := / tan (PI * (fc / fs)) in
  (0 < T -> free_ok (-1) T prs od /\ forall cz, In cz (flat prs od) -> exists zt, snd cz = Fin zt /\ (C1 - RtoC T * zt)%C <> C0 /\ Re (fst cz) < 0) ->
  (2 * length prs + ocount od = n)%nat -> (1 <= n <= cap)%nat -> valid_freq fc fs ->
  exists c, bind (hp_transformer checks (fc / fs) (analog cap prs od PI 1) (lay_new cap)) (make_cascade cap) = Ok c /\ built cap n c /\
    forall f, 0 < f -> 2 * f <= fs -> exists h, cas_response c (at_freq f fs) h /\
       Cnorm2 h = rprod (map (afac (- (tan (PI * (fc / fs)) * (cos (PI * (f / fs)) / sin (PI * (f / fs)))))) (flat prs od)).
Proof.
  intros T OD HN Hn [V1 V2]. pose proof (norm_range fc fs V1 V2) as R1. destruct (tan_pos_range _ R1) as [TP CP].
  unfold hp_transformer. rewrite rtan_ok by lra. cbn [bind]. rewrite rdiv_ok by lra. cbn [bind]. change (lay_w (analog cap prs od PI 1)) with PI.
  replace (1 / tan (PI * (fc / fs))) with T by (unfold T; field; lra). assert (FP : 0 < T) by (apply Rinv_0_lt_compat; auto).
  destruct (OD FP) as [OK AI]. replace (PI - PI) with 0 by ring.
  assert (EW : Cexp 0 = RtoC (- (-1))) by (rewrite Cexp_0'; f_equal; ring).
  destruct (free_cascade (-1) T prs od OK checks (hp_transform T) cap PI 0 1) as [c [E [E1 [E2 [E3 E4]]]]].
  - intros d Hd. apply hp_fine; auto.
  - lia.
  - intros cz HI. destruct (AI _ HI) as [zt [Z1 [Z2 _]]]. rewrite Z1, EW. apply Tb_ref; auto.
  - exists c. split; [exact E|]. split; [repeat split; auto; rewrite E1; apply count_half; auto|].
    assert (E4' : forall z, Cmod z = 1 -> cas_response c z (RtoC (1 / Cmod (stages_of (-1) T prs od (Cexp 0))) * stages_of (-1) T prs od z)%C) by exact E4.
    intros f0 F1 F2. eexists. split; [apply E4'; apply Cmod_at_freq|].
    assert (R2 : 0 < PI * (f0 / fs) <= PI / 2).
    { destruct F2 as [F2|F2]; [pose proof (norm_range f0 fs F1 F2); lra|]. pose proof PI_RGT_0. rewrite <- F2.
      replace (PI * (f0 / (2 * f0))) with (PI / 2) by (field; lra). lra. }
    rewrite at_freq_half by lra. destruct (high_side _ R2) as [L1 L2].
    assert (0 < sin (PI * (f0 / fs))) by (apply sin_gt_0; lra).
    rewrite (free_mag (-1) T prs od 0 1 _ _ OK AI EW (Cmod_exp _) L1 L2). rewrite !Rmult_1_l. do 3 f_equal.
    unfold T. field. lra.
Qed.
