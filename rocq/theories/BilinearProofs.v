From Coq Require Import Psatz Lia List.
From Verif Require Import RealBase RealBaseProofs BaseProofs Cplx CplxProofs PolyProofs BiquadModel BiquadSpec BiquadProofs.
From Verif Require Import StabilityProofs CascadeProofs DesignModel DesignSpec DesignProofs DesignProofs2 LayoutModel LayoutProofs.
Import ListNotations.
Local Open Scope R_scope.

(** Products of lists of reals. *)
Fixpoint rprod (l : list R) : R := match l with [] => 1 | a :: t => a * rprod t end.
Lemma rprod_app l m : rprod (l ++ m) = rprod l * rprod m.
Proof. induction l; simpl; [ring|]. rewrite IHl. ring. Qed.
Lemma rprod_pos l : (forall a, In a l -> 0 < a) -> 0 < rprod l.
Proof. induction l; intros HA; simpl; [lra|]. apply Rmult_lt_0_compat; [apply HA; left; auto|apply IHl; intros; apply HA; right; auto]. Qed.
Lemma rprod_map_mult {A} (f g : A -> R) l : rprod (map (fun a => f a * g a) l) = rprod (map f l) * rprod (map g l).
Proof. induction l; simpl; [ring|]. rewrite IHl. ring. Qed.
Lemma rprod_map_ext {A} (f g : A -> R) l : (forall a, In a l -> f a = g a) -> rprod (map f l) = rprod (map g l).
Proof. induction l; intros E; simpl; auto. rewrite E, IHl; auto; intros; try (apply E; right; auto). left; auto. Qed.
Lemma rprod_seq f n : rprod (map f (seq 0 n)) = prodf f n.
Proof. induction n; auto. rewrite seq_S, map_app, rprod_app, IHn. simpl. ring. Qed.
Lemma Cnorm2_cprod l : Cnorm2 (cprod l) = rprod (map Cnorm2 l).
Proof. induction l; simpl; [unfold Cnorm2; simpl; ring|]. rewrite Cnorm2_mul, IHl. ring. Qed.
Lemma Cnorm2_RtoC x : Cnorm2 (RtoC x) = x * x. Proof. unfold Cnorm2; simpl; ring. Qed.
Lemma Cnorm2_conj x : Cnorm2 (Cconj x) = Cnorm2 x. Proof. unfold Cnorm2; simpl; ring. Qed.
Lemma Cnorm2_div x y : y <> C0 -> Cnorm2 (Cdiv x y) = Cnorm2 x / Cnorm2 y.
Proof. apply norm2_quot. Qed.

(** The bilinear map: sigma = 1 for low-pass, -1 for high-pass. *)
Definition Tb (sigma f : R) (c : ecomplex) : C :=
  match c with
  | Inf => RtoC (- sigma)
  | Fin c => (RtoC sigma * ((C1 + RtoC f * c) / (C1 - RtoC f * c)))%C
  end.

Lemma one_minus_neq f c : 0 < f -> Re c <= 0 -> (C1 - RtoC f * c)%C <> C0.
Proof.
  intros Hf Hc E. apply (f_equal Re) in E. simpl in E. assert (f * Re c <= 0) by nra. lra.
Qed.
Lemma Cscal_RtoC f c : Cscal f c = (RtoC f * c)%C. Proof. apply C_eq; simpl; ring. Qed.

Definition lhp (c : ecomplex) : Prop := match c with Inf => True | Fin c => Re c <= 0 end.

Lemma lp_transform_T f c : 0 < f -> lhp c -> lp_transform f c = Ok (Tb 1 f c).
Proof.
  intros Hf Hc. destruct c as [c|]; simpl.
  - rewrite !Cscal_RtoC. rewrite cdiv_ok by (apply one_minus_neq; auto). f_equal. 
    change (RtoC 1) with C1. field. apply one_minus_neq; auto.
  - f_equal.
Qed.
Lemma hp_transform_T f c : 0 < f -> lhp c -> hp_transform f c = Ok (Tb (-1) f c).
Proof.
  intros Hf Hc. destruct c as [c|]; simpl.
  - rewrite !Cscal_RtoC. rewrite cdiv_ok by (apply one_minus_neq; auto). f_equal.
    replace (RtoC (-1)) with (- C1)%C by (apply C_eq; simpl; ring). field. apply one_minus_neq; auto.
  - f_equal. apply C_eq; simpl; ring.
Qed.

Lemma Cconj_inv a : Cconj (Cinv a) = Cinv (Cconj a).
Proof. unfold Cinv, Cconj, Cnorm2; apply C_eq; simpl; [|unfold Rdiv]; try ring.
  - f_equal. ring.
  - replace (Re a * Re a + - Im a * - Im a) with (Re a * Re a + Im a * Im a) by ring. ring.
Qed.
Lemma Tb_conj s f c : Tb s f (econj c) = Cconj (Tb s f c).
Proof.
  destruct c as [c|]; simpl; [|apply C_eq; simpl; ring].
  unfold Cdiv. rewrite !Cconj_mul, Cconj_inv. f_equal; [apply C_eq; simpl; ring|].
  f_equal; [|f_equal]; apply C_eq; simpl; ring.
Qed.
Lemma Tb_stable s f c : s = 1 \/ s = -1 -> 0 < f -> Re c < 0 -> Cmod (Tb s f (Fin c)) < 1.
Proof.
  intros Hs Hf Hc. simpl. rewrite Cmod_mul, Cmod_RtoC. replace (Rabs s) with 1 by (destruct Hs as [->| ->]; unfold Rabs; destruct (Rcase_abs _); lra).
  rewrite Rmult_1_l. apply Cmod_lt_1. assert (NZ : (C1 - RtoC f * c)%C <> C0) by (apply one_minus_neq; lra).
  rewrite Cnorm2_div by auto. assert (0 < Cnorm2 (C1 - RtoC f * c)%C) by (apply C_neq0; auto).
  apply (Rmult_lt_reg_r (Cnorm2 (C1 - RtoC f * c)%C)); auto. unfold Rdiv. rewrite Rmult_assoc, Rinv_l by lra.
  unfold Cnorm2; simpl. nra.
Qed.

(** ** Squared magnitudes of the stages *)
Definition dist2 (z a : C) : R := Cnorm2 (Csub z a).
Lemma dist2_conj z a : Cmod z = 1 -> True -> dist2 z (Cconj a) = dist2 (Cconj z) a.
Proof. intros _ _. unfold dist2, Cnorm2; simpl; ring. Qed.

Lemma pair_mag p zt z : Cmod p < 1 -> Cmod z = 1 ->
  Cnorm2 (H (pair_biquad p zt) z) = (dist2 z zt / dist2 z p) * (dist2 z (Cconj zt) / dist2 z (Cconj p)).
Proof.
  intros Hp Hz. pose proof (stable_den _ z (pair_stable p zt Hp) Hz) as HD. unfold H.
  rewrite Cnorm2_div by auto. rewrite pair_den in *. rewrite pair_num, !Cnorm2_mul.
  assert (A : (z - p)%C <> C0) by (intros E; apply HD; rewrite E; ring).
  assert (B : (z - Cconj p)%C <> C0) by (intros E; apply HD; rewrite E; ring).
  pose proof (C_neq0 _ A). pose proof (C_neq0 _ B). unfold dist2. field. lra.
Qed.
Lemma single_mag p zt z : Rabs p < 1 -> Cmod z = 1 ->
  Cnorm2 (H (single_biquad p zt) z) = dist2 z (RtoC zt) / dist2 z (RtoC p).
Proof.
  intros Hp Hz. pose proof (stable_den _ z (single_stable p zt Hp) Hz) as HD. unfold H.
  rewrite Cnorm2_div by auto. rewrite single_den in *. rewrite single_num, !Cnorm2_mul.
  assert (A : (z - RtoC p)%C <> C0) by (intros E; apply HD; rewrite E; ring).
  assert (N : Cnorm2 z = 1) by (rewrite <- Cmod_sqr, Hz; ring).
  rewrite N. unfold dist2. pose proof (C_neq0 _ A).
  replace (Cnorm2 (C1 - RtoC zt * z)%C) with (Cnorm2 (z - RtoC zt)%C); [field; lra|].
  destruct z as [x y]. unfold Cnorm2 in *; simpl in *. nra.
Qed.

(** All poles with their zeros, conjugates included. *)
Definition cz_conj (cz : C * ecomplex) : C * ecomplex := (Cconj (fst cz), econj (snd cz)).
Definition flat (prs : list (C * ecomplex)) (od : option (R * ecomplex)) : list (C * ecomplex) :=
  flat_map (fun cz => [cz; cz_conj cz]) prs ++ olist (fun cz => (RtoC (fst cz), snd cz)) od.
Definition fac (T : ecomplex -> C) (z : C) (cz : C * ecomplex) : R := dist2 z (T (snd cz)) / dist2 z (T (Fin (fst cz))).

Definition mkb (p : pz) : biquad := match make_biquad p with Ok q => q | _ => bq_default end.

Record design_ok (s f : R) (prs : list (C * ecomplex)) (od : option (R * ecomplex)) : Prop := {
  do_s : s = 1 \/ s = -1;
  do_f : 0 < f;
  do_p : forall cz, In cz prs -> Re (fst cz) < 0 /\ lhp (snd cz) /\ (snd cz = Inf \/ Im (fst cz) <> 0);
  do_o : forall cz, od = Some cz -> fst cz < 0 /\ lhp (snd cz) /\ (forall c, snd cz = Fin c -> Im c = 0)
}.

Section Design.
Variables (s f : R) (prs : list (C * ecomplex)) (od : option (R * ecomplex)).
Hypothesis OK : design_ok s f prs od.
Let T := Tb s f.
Lemma s_sq : s * s = 1. Proof. destruct (do_s _ _ _ _ OK) as [->| ->]; lra. Qed.

Lemma T_im c : (forall x, c = Fin x -> Im x = 0) -> Im (T c) = 0.
Proof.
  intros HI. assert (E : econj c = c).
  { destruct c as [c|]; auto. simpl. f_equal. apply C_eq; simpl; auto. rewrite (HI c eq_refl). ring. }
  pose proof (Tb_conj s f c) as X. rewrite E in X. fold T in X. apply (f_equal Im) in X. simpl in X. lra.
Qed.

Lemma mkb_pair cz : In cz prs -> make_biquad (dpair T cz) = Ok (pair_biquad (T (Fin (fst cz))) (T (econj (snd cz)))).
Proof.
  intros HI. destruct (do_p _ _ _ _ OK cz HI) as [Hre [Hz Hn]]. unfold make_biquad, dpair. cbn [zero1 zero2 pole1 pole2].
  assert (X : single_pole (mkPz (T (Fin (fst cz))) (Fin (T (econj (snd cz)))) (Cconj (T (Fin (fst cz)))) (Fin (Cconj (T (econj (snd cz)))))) = false).
  { unfold single_pole; cbn [pole2 zero2 eis_zero]. pose proof s_sq as ss. destruct Hn as [->|Hn].
    - rewrite (is_zero_false (Cconj (T (econj Inf)))); [apply Bool.andb_false_r|]. simpl. intros E. apply (f_equal Re) in E. simpl in E. nra.
    - rewrite (is_zero_false (Cconj (T (Fin (fst cz))))); auto. intros E.
      assert (E2 : T (Fin (fst cz)) = C0) by (rewrite <- (Cconj_invol (T (Fin (fst cz)))), E; apply C_eq; simpl; ring).
      unfold T in E2. simpl in E2. pose proof (do_f _ _ _ _ OK) as Hf.
      assert (NZ : (C1 - RtoC f * fst cz)%C <> C0) by (apply one_minus_neq; lra).
      assert (E3 : (C1 + RtoC f * fst cz)%C = C0).
      { transitivity (RtoC s * (RtoC s * ((C1 + RtoC f * fst cz) / (C1 - RtoC f * fst cz))) * (C1 - RtoC f * fst cz))%C.
        - replace (RtoC s * (RtoC s * ((C1 + RtoC f * fst cz) / (C1 - RtoC f * fst cz))))%C
            with (RtoC (s * s) * ((C1 + RtoC f * fst cz) / (C1 - RtoC f * fst cz)))%C by (rewrite RtoC_mul; ring).
          rewrite ss. change (RtoC 1) with C1. field. auto.
        - rewrite E2. ring. }
      apply (f_equal Im) in E3. simpl in E3. assert (f * Im (fst cz) = 0) by lra. nra. }
  rewrite X. apply bq_pairs_conj.
Qed.

Lemma mkb_single cz : od = Some cz -> make_biquad (dsingle T cz) = Ok (single_biquad (Re (T (Fin (RtoC (fst cz))))) (Re (T (snd cz)))).
Proof.
  intros E. destruct (do_o _ _ _ _ OK cz E) as [Hre [Hz Hn]]. unfold make_biquad, dsingle. cbn [zero1 zero2 pole1 pole2].
  unfold single_pole; cbn [pole2 zero2 eis_zero]. rewrite is_zero_C0. cbn [andb].
  replace (T (Fin (RtoC (fst cz)))) with (RtoC (Re (T (Fin (RtoC (fst cz)))))) at 1.
  - replace (T (snd cz)) with (RtoC (Re (T (snd cz)))) at 1; [apply bq_single|].
    apply C_eq; auto. simpl. symmetry. apply T_im. auto.
  - apply C_eq; auto. cbn [Im RtoC snd]. symmetry. apply T_im. intros x Hx; injection Hx as <-. reflexivity.
Qed.

Lemma pole_in cz : In cz (flat prs od) -> Cmod (T (Fin (fst cz))) < 1.
Proof.
  intros HI. apply Tb_stable; [apply (do_s _ _ _ _ OK)|apply (do_f _ _ _ _ OK)|].
  unfold flat in HI. apply in_app_or in HI. destruct HI as [HI|HI].
  - apply in_flat_map in HI. destruct HI as [x [Hx [<-|[<-|[]]]]]; simpl; apply (do_p _ _ _ _ OK x Hx).
  - remember od as o eqn:E in HI. destruct o as [x|]; [|destruct HI]. destruct HI as [<-|[]]. simpl. apply (do_o _ _ _ _ OK x). auto.
Qed.

(** The product of the squared stage magnitudes. *)
Lemma mag_prod z : Cmod z = 1 ->
  Cnorm2 (cprod (map (fun p => H (mkb p) z) (map (dpair T) prs ++ olist (dsingle T) od))) = rprod (map (fac T z) (flat prs od)).
Proof.
  intros Hz. rewrite map_app, cprod_app, Cnorm2_mul. unfold flat. rewrite map_app, rprod_app. f_equal.
  - assert (HP : forall cz, In cz prs -> In cz prs) by auto. revert HP. generalize prs at 1 3 4. intros l HP.
    induction l as [|cz l IH]; [unfold Cnorm2; simpl; ring|]. cbn [map cprod flat_map app rprod]. rewrite Cnorm2_mul, IH by (intros; apply HP; right; auto).
    unfold mkb at 1. rewrite mkb_pair by (apply HP; left; auto). rewrite pair_mag; auto.
    2:{ apply pole_in. unfold flat. apply in_or_app. left. apply in_flat_map. exists cz. split; [apply HP; left; auto|left; auto]. }
    unfold fac. unfold cz_conj. cbn [fst snd]. unfold T. rewrite !Tb_conj. rewrite Cconj_invol.
    change (Fin (Cconj (fst cz))) with (econj (Fin (fst cz))). rewrite Tb_conj. unfold Rdiv. ring.
  - remember od as o eqn:E in |- *. destruct o as [cz|]; [|unfold Cnorm2; simpl; ring]. symmetry in E. cbn [olist map cprod rprod].
    rewrite Cnorm2_mul. unfold mkb. rewrite (mkb_single cz) by auto.
    assert (EP : RtoC (Re (T (Fin (RtoC (fst cz))))) = T (Fin (RtoC (fst cz)))).
    { apply C_eq; auto. cbn [Im RtoC snd]. symmetry. apply T_im. intros x Hx; injection Hx as <-. reflexivity. }
    assert (EZ : RtoC (Re (T (snd cz))) = T (snd cz)).
    { apply C_eq; auto. cbn [Im RtoC snd]. symmetry. apply T_im. apply (do_o _ _ _ _ OK cz E). }
    rewrite single_mag; auto.
    + rewrite EP, EZ. unfold fac. cbn [fst snd]. unfold Cnorm2; simpl. ring.
    + rewrite <- Cmod_RtoC, EP. apply (pole_in (RtoC (fst cz), snd cz)). unfold flat. apply in_or_app. right. rewrite E. left. reflexivity.
Qed.

(** The cascade built from the layout. *)
Lemma design_cascade checks tr cap w w' g : 
  (forall c, lhp c -> tr c = Ok (T c)) ->
  (1 <= 2 * length prs + ocount od <= cap)%nat ->
  (forall cz, In cz (flat prs od) -> Cexp w' <> T (snd cz)) ->
  exists c, bind (transform_layout checks tr w' (analog cap prs od w g) (lay_new cap)) (make_cascade cap) = Ok c /\
    num_stage c = (length prs + ocount od)%nat /\ length (stages c) = ((cap + 1) / 2)%nat /\
    Forall (fun q => bq_stability q = true /\ at_rest q) (used c) /\
    forall z, Cmod z = 1 -> cas_response c z
       (Cmul (RtoC (g / Cmod (cprod (map (fun p => H (mkb p) (Cexp w')) (map (dpair T) prs ++ olist (dsingle T) od)))))
             (cprod (map (fun p => H (mkb p) z) (map (dpair T) prs ++ olist (dsingle T) od)))).
Proof.
  intros HT HC HR. rewrite (transform_layout_ok checks tr T).
  - cbn [bind]. destruct (make_cascade_ok mkb cap (map (dpair T) prs ++ olist (dsingle T) od) (2 * length prs + ocount od) w' g)
      as [c [E [Hn [Hl [Hst Hr]]]]].
    + destruct prs; [destruct od; [discriminate|simpl in HC; lia]|discriminate].
    + rewrite app_length, map_length. destruct od; cbn [olist ocount length].
      * replace (2 * length prs + 1 + 1)%nat with ((length prs + 1) * 2)%nat by lia. rewrite Nat.div_mul; lia.
      * rewrite !Nat.add_0_r. rewrite div2_odd. reflexivity.
    + lia.
    + intros p Hp. apply in_app_or in Hp.
      assert (Key : forall p q, make_biquad p = Ok q -> good q -> H q (Cexp w') <> C0 ->
          make_biquad p = Ok (mkb p) /\ good (mkb p) /\ H (mkb p) (Cexp w') <> C0).
      { intros p0 q E0 G0 N0. unfold mkb. rewrite E0. auto. }
      destruct Hp as [Hp|Hp].
      * apply in_map_iff in Hp. destruct Hp as [cz [<- HI]].
        assert (HF1 : In cz (flat prs od)) by (apply in_or_app; left; apply in_flat_map; exists cz; split; [auto|left; auto]).
        assert (HF2 : In (cz_conj cz) (flat prs od)) by (apply in_or_app; left; apply in_flat_map; exists cz; split; [auto|right; left; auto]).
        pose proof (pole_in cz HF1) as Hst.
        apply (Key _ _ (mkb_pair cz HI)).
        { split; [apply pair_stable; auto|split; [reflexivity|split; reflexivity]]. }
        intros E. assert (N : Cnorm2 (H (pair_biquad (T (Fin (fst cz))) (T (econj (snd cz)))) (Cexp w')) = 0) by (rewrite E; unfold Cnorm2; simpl; ring).
        unfold H in N. pose proof (stable_den _ _ (pair_stable _ (T (econj (snd cz))) Hst) (Cmod_exp w')) as HD.
        rewrite Cnorm2_div in N by auto. rewrite pair_num in N. rewrite Cnorm2_mul in N.
        assert (P1 : 0 < Cnorm2 (Cexp w' - T (econj (snd cz)))%C).
        { apply C_neq0. intros Z. apply (HR _ HF2). simpl. transitivity (Cexp w' - (Cexp w' - T (econj (snd cz))))%C; [rewrite Z|]; ring. }
        assert (P2 : 0 < Cnorm2 (Cexp w' - Cconj (T (econj (snd cz))))%C).
        { apply C_neq0. intros Z. apply (HR _ HF1). unfold T in *. rewrite Tb_conj, Cconj_invol in Z.
          transitivity (Cexp w' - (Cexp w' - Tb s f (snd cz)))%C; [rewrite Z|]; ring. }
        pose proof (C_neq0 _ HD) as P3.
        assert (0 < Cnorm2 (Cexp w' - T (econj (snd cz)))%C * Cnorm2 (Cexp w' - Cconj (T (econj (snd cz))))%C /
           Cnorm2 (tf_den (a1 (pair_biquad (T (Fin (fst cz))) (T (econj (snd cz))))) (a2 (pair_biquad (T (Fin (fst cz))) (T (econj (snd cz))))) (Cexp w'))); [|lra].
        apply Rmult_lt_0_compat; [apply Rmult_lt_0_compat; auto|apply Rinv_0_lt_compat; auto].
      * remember od as o eqn:Eo in Hp. destruct o as [cz|]; [|destruct Hp]. destruct Hp as [<-|[]]. symmetry in Eo.
        assert (HF1 : In (RtoC (fst cz), snd cz) (flat prs od)) by (apply in_or_app; right; rewrite Eo; left; auto).
        pose proof (pole_in _ HF1) as Hst. cbn [fst] in Hst.
        assert (EP : RtoC (Re (T (Fin (RtoC (fst cz))))) = T (Fin (RtoC (fst cz)))).
        { apply C_eq; auto. cbn [Im RtoC snd]. symmetry. apply T_im. intros x Hx; injection Hx as <-. reflexivity. }
        assert (EZ : RtoC (Re (T (snd cz))) = T (snd cz)).
        { apply C_eq; auto. cbn [Im RtoC snd]. symmetry. apply T_im. apply (do_o _ _ _ _ OK cz Eo). }
        assert (SB : Rabs (Re (T (Fin (RtoC (fst cz))))) < 1) by (rewrite <- Cmod_RtoC, EP; auto).
        apply (Key _ _ (mkb_single cz Eo)).
        { split; [apply single_stable; auto|split; [reflexivity|split; reflexivity]]. }
        intros E. assert (N : Cnorm2 (H (single_biquad (Re (T (Fin (RtoC (fst cz))))) (Re (T (snd cz)))) (Cexp w')) = 0) by (rewrite E; unfold Cnorm2; simpl; ring).
        rewrite single_mag in N by (auto; apply Cmod_exp). rewrite EP, EZ in N. unfold dist2 in N.
        assert (P1 : 0 < Cnorm2 (Cexp w' - T (snd cz))%C).
        { apply C_neq0. intros Z. apply (HR _ HF1). cbn [snd]. transitivity (Cexp w' - (Cexp w' - T (snd cz)))%C; [rewrite Z|]; ring. }
        assert (P3 : 0 < Cnorm2 (Cexp w' - T (Fin (RtoC (fst cz))))%C).
        { apply C_neq0. intros Z. assert (Cexp w' = T (Fin (RtoC (fst cz)))).
          { transitivity (Cexp w' - (Cexp w' - T (Fin (RtoC (fst cz)))))%C; [rewrite Z|]; ring. }
          match goal with E0 : Cexp w' = _ |- _ => rewrite <- E0, Cmod_exp in Hst end; lra. }
        assert (0 < Cnorm2 (Cexp w' - T (snd cz))%C / Cnorm2 (Cexp w' - T (Fin (RtoC (fst cz))))%C); [|lra].
        apply Rmult_lt_0_compat; [auto|apply Rinv_0_lt_compat; auto].
    + exists c. split; [exact E|]. split; [rewrite Hn, app_length, map_length; destruct od; reflexivity|]. split; [exact Hl|]. split; [exact Hst|]. exact Hr.
  - intros cz Hcz. destruct (do_p _ _ _ _ OK cz Hcz) as [Hre [Hz _]]. split; apply HT.
    + simpl. lra.
    + destruct (snd cz); simpl in *; auto.
  - intros cz Hcz. destruct (do_o _ _ _ _ OK cz Hcz) as [Hre [Hz HI]]. split; [|split; [|split]].
    + apply HT. simpl. lra.
    + apply HT. auto.
    + apply T_im. intros x Hx; injection Hx as <-. reflexivity.
    + apply T_im. auto.
  - destruct prs; simpl in *; lia.
Qed.

(** Magnitude relative to the reference point. *)
Lemma relative_mag (c : cascade) w' g z (h : C) : Cmod z = 1 ->
  (forall cz, In cz (flat prs od) -> Cexp w' <> T (snd cz)) ->
  h = (Cmul (RtoC (g / Cmod (cprod (map (fun p => H (mkb p) (Cexp w')) (map (dpair T) prs ++ olist (dsingle T) od)))))
             (cprod (map (fun p => H (mkb p) z) (map (dpair T) prs ++ olist (dsingle T) od)))) ->
  Cnorm2 h = g * g * (rprod (map (fac T z) (flat prs od)) / rprod (map (fac T (Cexp w')) (flat prs od))) /\
  0 < rprod (map (fac T (Cexp w')) (flat prs od)).
Proof.
  intros Hz HR ->. 
  assert (P : 0 < rprod (map (fac T (Cexp w')) (flat prs od))).
  { apply rprod_pos. intros a Ha. apply in_map_iff in Ha. destruct Ha as [cz [<- HI]]. unfold fac, dist2.
    apply Rmult_lt_0_compat; [|apply Rinv_0_lt_compat]; apply C_neq0; intros Z.
    - apply (HR _ HI). transitivity (Cexp w' - (Cexp w' - T (snd cz)))%C; [rewrite Z|]; ring.
    - pose proof (pole_in cz HI) as Hst. assert (E : Cexp w' = T (Fin (fst cz))).
      { transitivity (Cexp w' - (Cexp w' - T (Fin (fst cz))))%C; [rewrite Z|]; ring. }
      rewrite <- E, Cmod_exp in Hst. lra. }
  split; auto. rewrite Cnorm2_mul, Cnorm2_RtoC. rewrite (mag_prod z Hz).
  pose proof (mag_prod (Cexp w') (Cmod_exp w')) as M. rewrite <- Cmod_sqr in M. rewrite <- M in *.
  set (X := Cmod (cprod (map (fun p => H (mkb p) (Cexp w')) (map (dpair T) prs ++ olist (dsingle T) od)))) in *.
  clearbody X. assert (X <> 0) by (intros E; rewrite E in P; lra). field. auto.
Qed.
End Design.

(** ** The two reference points *)
Lemma fac_inf s f c z t : s = 1 \/ s = -1 -> 0 < f -> Re c < 0 ->
  (RtoC s * z - C1 = RtoC t * Ci * (RtoC s * z + C1))%C -> (RtoC s * z + C1)%C <> C0 ->
  fac (Tb s f) z (c, Inf) = fac (Tb s f) (RtoC s) (c, Inf) * (Cnorm2 c / Cnorm2 (RtoC (t / f) * Ci - c)%C).
Proof.
  intros Hs Hf Hc Ez NZ. unfold fac, dist2. cbn [fst snd].
  assert (ss : s * s = 1) by (destruct Hs as [->| ->]; lra).
  assert (OM : (C1 - RtoC f * c)%C <> C0) by (apply one_minus_neq; lra).
  assert (NS : forall a b, Cnorm2 (RtoC s * a - RtoC s * b)%C = Cnorm2 (a - b)%C).
  { intros a b. replace (RtoC s * a - RtoC s * b)%C with (RtoC s * (a - b))%C by ring. rewrite Cnorm2_mul, Cnorm2_RtoC, ss. ring. }
  assert (SS : (RtoC s * RtoC s)%C = C1) by (rewrite <- RtoC_mul, ss; reflexivity).
  set (z' := (RtoC s * z)%C) in *.
  assert (Z : z = (RtoC s * z')%C) by (unfold z'; transitivity ((RtoC s * RtoC s) * z)%C; [rewrite SS|]; ring).
  assert (D1 : Cnorm2 (z - Tb s f Inf)%C = Cnorm2 (z' + C1)%C).
  { rewrite Z. replace (RtoC s * z' - Tb s f Inf)%C with (RtoC s * z' - RtoC s * (- C1))%C by (simpl; apply C_eq; simpl; ring).
    rewrite NS. f_equal. ring. }
  assert (D2 : Cnorm2 (z - Tb s f (Fin c))%C = Cnorm2 (z' + C1)%C * (f * f * Cnorm2 (RtoC (t / f) * Ci - c)%C) / Cnorm2 (C1 - RtoC f * c)%C).
  { rewrite Z. simpl. rewrite NS. rewrite <- Cnorm2_RtoC, <- !Cnorm2_mul, <- Cnorm2_div by auto. f_equal.
    transitivity (((z' - C1) - RtoC f * c * (z' + C1)) / (C1 - RtoC f * c))%C; [field; auto|]. rewrite Ez.
    replace (RtoC t) with (RtoC f * RtoC (t / f))%C by (rewrite <- RtoC_mul; f_equal; field; lra). field. auto. }
  assert (D3 : Cnorm2 (RtoC s - Tb s f Inf)%C = 4).
  { simpl. unfold Cnorm2; simpl. nra. }
  assert (D4 : Cnorm2 (RtoC s - Tb s f (Fin c))%C = 4 * (f * f * Cnorm2 c) / Cnorm2 (C1 - RtoC f * c)%C).
  { replace (RtoC s) with (RtoC s * C1)%C at 1 by ring. simpl. rewrite NS.
    replace 4 with (Cnorm2 (RtoC 2)) by (rewrite Cnorm2_RtoC; ring).
    rewrite <- (Cnorm2_RtoC f), <- !Cnorm2_mul, <- Cnorm2_div by auto.
    transitivity (Cnorm2 (- (RtoC 2 * (RtoC f * c)) / (C1 - RtoC f * c))%C).
    - f_equal. replace (RtoC 2) with (C1 + C1)%C by (apply C_eq; simpl; ring). field. auto.
    - rewrite !Cnorm2_div by auto. f_equal. unfold Cnorm2; simpl; ring. }
  rewrite D1, D2, D3, D4.
  pose proof (C_neq0 _ OM). pose proof (C_neq0 _ NZ).
  assert (0 < Cnorm2 c) by (apply C_neq0; intros E; rewrite E in Hc; simpl in Hc; lra).
  assert (0 < Cnorm2 (RtoC (t / f) * Ci - c)%C).
  { apply C_neq0. intros E. apply (f_equal Re) in E. simpl in E. ring_simplify in E. lra. }
  field. repeat split; lra.
Qed.

Lemma fac_fin s f c zt z t : s = 1 \/ s = -1 -> 0 < f -> Re c < 0 -> Re zt <= 0 ->
  (RtoC s * z - C1 = RtoC t * Ci * (RtoC s * z + C1))%C -> (RtoC s * z + C1)%C <> C0 ->
  fac (Tb s f) z (c, Fin zt) = fac (Tb s f) (RtoC (- s)) (c, Fin zt) *
     (Cnorm2 (RtoC (t / f) * Ci - zt)%C / Cnorm2 (RtoC (t / f) * Ci - c)%C).
Proof.
  intros Hs Hf Hc Hzt Ez NZ. unfold fac, dist2. cbn [fst snd].
  assert (ss : s * s = 1) by (destruct Hs as [->| ->]; lra).
  assert (NS : forall a b, Cnorm2 (RtoC s * a - RtoC s * b)%C = Cnorm2 (a - b)%C).
  { intros a b. replace (RtoC s * a - RtoC s * b)%C with (RtoC s * (a - b))%C by ring. rewrite Cnorm2_mul, Cnorm2_RtoC, ss. ring. }
  assert (SS : (RtoC s * RtoC s)%C = C1) by (rewrite <- RtoC_mul, ss; reflexivity).
  set (z' := (RtoC s * z)%C) in *.
  assert (Z : z = (RtoC s * z')%C) by (unfold z'; transitivity ((RtoC s * RtoC s) * z)%C; [rewrite SS|]; ring).
  assert (D2 : forall c, Re c <= 0 -> Cnorm2 (z - Tb s f (Fin c))%C = Cnorm2 (z' + C1)%C * (f * f * Cnorm2 (RtoC (t / f) * Ci - c)%C) / Cnorm2 (C1 - RtoC f * c)%C).
  { intros d Hd. assert (OM : (C1 - RtoC f * d)%C <> C0) by (apply one_minus_neq; lra).
    rewrite Z. simpl. rewrite NS. rewrite <- Cnorm2_RtoC, <- !Cnorm2_mul, <- Cnorm2_div by auto. f_equal.
    transitivity (((z' - C1) - RtoC f * d * (z' + C1)) / (C1 - RtoC f * d))%C; [field; auto|]. rewrite Ez.
    replace (RtoC t) with (RtoC f * RtoC (t / f))%C by (rewrite <- RtoC_mul; f_equal; field; lra). field. auto. }
  assert (D4 : forall c, Re c <= 0 -> Cnorm2 (RtoC (- s) - Tb s f (Fin c))%C = 4 / Cnorm2 (C1 - RtoC f * c)%C).
  { intros d Hd. assert (OM : (C1 - RtoC f * d)%C <> C0) by (apply one_minus_neq; lra).
    replace (RtoC (- s)) with (RtoC s * (- C1))%C at 1 by (apply C_eq; simpl; ring). simpl. rewrite NS.
    replace 4 with (Cnorm2 (- RtoC 2)%C) by (unfold Cnorm2; simpl; ring).
    rewrite <- Cnorm2_div by auto. f_equal. replace (RtoC 2) with (C1 + C1)%C by (apply C_eq; simpl; ring). field. auto. }
  rewrite !D2, !D4 by lra.
  assert (OM : (C1 - RtoC f * c)%C <> C0) by (apply one_minus_neq; lra).
  assert (OZ : (C1 - RtoC f * zt)%C <> C0) by (apply one_minus_neq; lra).
  pose proof (C_neq0 _ OM). pose proof (C_neq0 _ OZ). pose proof (C_neq0 _ NZ).
  assert (0 < Cnorm2 (RtoC (t / f) * Ci - c)%C).
  { apply C_neq0. intros E. apply (f_equal Re) in E. simpl in E. ring_simplify in E. lra. }
  field. repeat split; lra.
Qed.

(** ** Half-angle *)
Lemma half_angle t : cos t <> 0 -> (Cexp (2 * t) - C1 = RtoC (tan t) * Ci * (Cexp (2 * t) + C1))%C /\ (Cexp (2 * t) + C1)%C <> C0.
Proof.
  intros HC. pose proof (sc2 t) as SC.
  assert (HT : tan t * cos t = sin t) by (unfold tan; field; auto). unfold Cexp.
  rewrite (cos_2a t), (sin_2a t). set (V := tan t) in *. set (X := cos t) in *. set (S := sin t) in *.
  clearbody V X S. subst S. split.
  - apply C_eq; simpl.
    + replace 1 with (V * X * (V * X) + X * X) at 1 by lra. ring.
    + transitivity (V * (X * X - V * X * (V * X) + (V * X * (V * X) + X * X))); [ring|]. rewrite SC. ring.
  - intros E. injection E as E1 E2. assert (2 * (X * X) = 0) by lra. nra.
Qed.
