From Coq Require Import Psatz Lia List.
From Verif Require Import RealBase RealBaseProofs BaseProofs Cplx CplxProofs PolyProofs BiquadModel BiquadSpec BiquadProofs.
From Verif Require Import StabilityProofs CascadeProofs DesignModel DesignSpec DesignProofs DesignProofs2 LayoutModel LayoutProofs BilinearProofs.
Import ListNotations.
Local Open Scope R_scope.

Definition all_inf (l : list (C * ecomplex)) : Prop := forall cz, In cz l -> snd cz = Inf.
Definition afac (x : R) (cz : C * ecomplex) : R :=
  match snd cz with
  | Inf => Cnorm2 (fst cz) / Cnorm2 (RtoC x * Ci - fst cz)%C
  | Fin zt => Cnorm2 (RtoC x * Ci - zt)%C / Cnorm2 (RtoC x * Ci - fst cz)%C
  end.

Lemma flat_re s f prs od : design_ok s f prs od -> forall cz, In cz (flat prs od) -> Re (fst cz) < 0 /\ lhp (snd cz).
Proof.
  intros OK cz HI. unfold flat in HI. apply in_app_or in HI. destruct HI as [HI|HI].
  - apply in_flat_map in HI. destruct HI as [x [Hx [<-|[<-|[]]]]]; destruct (do_p _ _ _ _ OK x Hx) as [A [B _]]; simpl; auto.
    split; auto. destruct (snd x); simpl in *; auto.
  - destruct od as [x|] eqn:E; [|destruct HI]. destruct HI as [<-|[]]. simpl. destruct (do_o _ _ _ _ OK x) as [A [B _]]; auto.
Qed.

Definition stages_of (s f : R) prs od z : C :=
  cprod (map (fun p => H (mkb p) z) (map (dpair (Tb s f)) prs ++ olist (dsingle (Tb s f)) od)).

(** Zeros at infinity: unit gain at z = s, analogue magnitude elsewhere. *)
Lemma pass_mag s f prs od w' g z t :
  design_ok s f prs od -> all_inf (flat prs od) -> Cexp w' = RtoC s -> Cmod z = 1 ->
  (RtoC s * z - C1 = RtoC t * Ci * (RtoC s * z + C1))%C -> (RtoC s * z + C1)%C <> C0 ->
  Cnorm2 (RtoC (g / Cmod (stages_of s f prs od (Cexp w'))) * stages_of s f prs od z)%C =
    g * g * rprod (map (afac (t / f)) (flat prs od)).
Proof.
  intros OK AI Ew Hz Ez NZ.
  assert (HR : forall cz, In cz (flat prs od) -> Cexp w' <> Tb s f (snd cz)).
  { intros cz HI. rewrite (AI _ HI), Ew. simpl. intros E. injection E as E. destruct (do_s _ _ _ _ OK); subst; lra. }
  destruct (relative_mag s f prs od OK (cas_new 0) w' g z _ Hz HR eq_refl) as [E P].
  unfold stages_of. rewrite E. f_equal.
  rewrite (rprod_map_ext (fac (Tb s f) z) (fun cz => fac (Tb s f) (Cexp w') cz * afac (t / f) cz)).
  - rewrite rprod_map_mult. field. lra.
  - intros [c zt] HI. pose proof (AI _ HI) as Hi. cbn [snd] in Hi. subst zt. rewrite Ew.
    apply fac_inf; auto; [apply (do_s _ _ _ _ OK)|apply (do_f _ _ _ _ OK)|].
    apply (proj1 (flat_re _ _ _ _ OK _ HI)).
Qed.

(** Finite zeros: unit gain at z = -s. *)
Definition all_fin (l : list (C * ecomplex)) : Prop := forall cz, In cz l -> exists z, snd cz = Fin z /\ Re z < 0.
Lemma shelf_mag s f prs od w' g z t :
  design_ok s f prs od -> all_fin (flat prs od) -> Cexp w' = RtoC (- s) -> Cmod z = 1 ->
  (RtoC s * z - C1 = RtoC t * Ci * (RtoC s * z + C1))%C -> (RtoC s * z + C1)%C <> C0 ->
  Cnorm2 (RtoC (g / Cmod (stages_of s f prs od (Cexp w'))) * stages_of s f prs od z)%C =
    g * g * rprod (map (afac (t / f)) (flat prs od)).
Proof.
  intros OK AI Ew Hz Ez NZ.
  assert (HR : forall cz, In cz (flat prs od) -> Cexp w' <> Tb s f (snd cz)).
  { intros cz HI. destruct (AI _ HI) as [zt [E1 E2]]. rewrite E1. intros E.
    pose proof (Tb_stable s f zt (do_s _ _ _ _ OK) (do_f _ _ _ _ OK) E2) as B. rewrite <- E, Cmod_exp in B. lra. }
  destruct (relative_mag s f prs od OK (cas_new 0) w' g z _ Hz HR eq_refl) as [E P].
  unfold stages_of. rewrite E. f_equal.
  rewrite (rprod_map_ext (fac (Tb s f) z) (fun cz => fac (Tb s f) (Cexp w') cz * afac (t / f) cz)).
  - rewrite rprod_map_mult. field. lra.
  - intros [c zt'] HI. destruct (AI _ HI) as [zt [E1 E2]]. cbn [snd] in E1. subst zt'. rewrite Ew.
    apply fac_fin; auto; [apply (do_s _ _ _ _ OK)|apply (do_f _ _ _ _ OK)| |lra].
    apply (proj1 (flat_re _ _ _ _ OK _ HI)).
Qed.

(** Exact values at the two ends of the band (z = r, r = 1 or -1). *)
Lemma pair_at_real p zt r : Cmod p < 1 -> r = 1 \/ r = -1 ->
  H (pair_biquad p zt) (RtoC r) = RtoC (Cnorm2 (RtoC r - zt)%C / Cnorm2 (RtoC r - p)%C).
Proof.
  intros Hp Hr. assert (M : Cmod (RtoC r) = 1) by (rewrite Cmod_RtoC; destruct Hr as [->| ->]; unfold Rabs; destruct (Rcase_abs _); lra).
  pose proof (stable_den _ _ (pair_stable p zt Hp) M) as HD. unfold H. rewrite pair_den in *. rewrite pair_num.
  assert (X : forall a, ((RtoC r - a) * (RtoC r - Cconj a))%C = RtoC (Cnorm2 (RtoC r - a)%C)).
  { intros a. apply C_eq; unfold Cnorm2; simpl; ring. }
  rewrite !X in *. apply C_eq; unfold Cdiv, Cinv, Cnorm2; simpl; field.
  all: intros E; apply HD; apply C_eq; simpl; auto; unfold Cnorm2; simpl; nra.
Qed.
Lemma single_at_real p zt r : Rabs p < 1 -> r = 1 \/ r = -1 ->
  H (single_biquad p zt) (RtoC r) = RtoC ((1 - zt * r) / (r - p)) /\ 0 < r * (r - p).
Proof.
  intros Hp Hr. assert (M : Cmod (RtoC r) = 1) by (rewrite Cmod_RtoC; destruct Hr as [->| ->]; unfold Rabs; destruct (Rcase_abs _); lra).
  assert (P : -1 < p < 1) by (unfold Rabs in Hp; destruct (Rcase_abs p); lra).
  assert (N : r - p <> 0) by (destruct Hr as [->| ->]; lra).
  split; [|destruct Hr as [->| ->]; lra].
  unfold H. rewrite single_den, single_num.
  assert (RtoC r <> C0) by (intros E; injection E as E; destruct Hr as [->| ->]; lra).
  assert ((RtoC r - RtoC p)%C <> C0) by (intros E; injection E as E; lra).
  transitivity ((C1 - RtoC zt * RtoC r) / (RtoC r - RtoC p))%C; [field; auto|].
  apply C_eq; unfold Cdiv, Cinv, Cnorm2; simpl; field; auto.
  all: try (replace (r - p) with (r + - p) in N by ring; split; auto).
  all: try (intros E; apply N; nra).
Qed.

Definition osign {A} (o : option A) (s : R) : R := match o with Some _ => s | None => 1 end.

Lemma pass_at_ref s f prs od : design_ok s f prs od -> all_inf (flat prs od) ->
  exists m, 0 < m /\ stages_of s f prs od (RtoC s) = RtoC (m * osign od s).
Proof.
  intros OK AI. unfold stages_of. rewrite map_app, cprod_app.
  assert (A : exists m, 0 < m /\ cprod (map (fun p => H (mkb p) (RtoC s)) (map (dpair (Tb s f)) prs)) = RtoC m).
  { assert (HP : forall cz, In cz prs -> In cz prs) by auto. revert HP. generalize prs at 1 3. intros l HP. 
    induction l as [|cz l IH]; [exists 1; split; [lra|reflexivity]|].
    destruct IH as [m [Pm Em]]; [intros; apply HP; right; auto|].
    assert (HI : In cz prs) by (apply HP; left; auto).
    assert (HF : In cz (flat prs od)) by (apply in_or_app; left; apply in_flat_map; exists cz; split; [auto|left; auto]).
    cbn [map cprod]. unfold mkb at 1. rewrite (mkb_pair s f prs od OK cz HI), Em.
    pose proof (pole_in s f prs od OK cz HF) as Hst.
    rewrite pair_at_real by (auto; apply (do_s _ _ _ _ OK)). rewrite <- RtoC_mul. eexists. split; [|reflexivity].
    apply Rmult_lt_0_compat; auto. apply Rmult_lt_0_compat; [|apply Rinv_0_lt_compat]; apply C_neq0; intros E.
    - rewrite (AI _ HF) in E. simpl in E. injection E as E. destruct (do_s _ _ _ _ OK); subst; lra.
    - assert (E2 : Tb s f (Fin (fst cz)) = RtoC s).
      { transitivity (RtoC s - (RtoC s - Tb s f (Fin (fst cz))))%C; [|rewrite E]; ring. }
      rewrite E2, Cmod_RtoC in Hst. destruct (do_s _ _ _ _ OK) as [X|X]; rewrite X in Hst; unfold Rabs in Hst; destruct (Rcase_abs _); lra. }
  destruct A as [m [Pm Em]]. rewrite Em.
  destruct od as [cz|] eqn:Eo.
  - cbn [olist map cprod osign]. unfold mkb. rewrite (mkb_single s f prs (Some cz) OK cz eq_refl).
    assert (HF : In (RtoC (fst cz), snd cz) (flat prs (Some cz))) by (apply in_or_app; right; left; auto).
    pose proof (AI _ HF) as Hi. cbn [snd] in Hi. rewrite Hi.
    pose proof (pole_in s f prs _ OK _ HF) as Hst. cbn [fst] in Hst.
    assert (EP : RtoC (Re (Tb s f (Fin (RtoC (fst cz))))) = Tb s f (Fin (RtoC (fst cz)))).
    { apply C_eq; auto. cbn [Im RtoC snd]. symmetry. apply (T_im s f). intros x Hx; injection Hx as <-. reflexivity. }
    rewrite <- EP, Cmod_RtoC in Hst. set (p := Re (Tb s f (Fin (RtoC (fst cz))))) in *. clearbody p.
    destruct (single_at_real p (Re (Tb s f Inf)) s Hst (do_s _ _ _ _ OK)) as [E P]. rewrite E.
    exists (m * (2 / (s * (s - p)))). split.
    + apply Rmult_lt_0_compat; auto. apply Rmult_lt_0_compat; [lra|apply Rinv_0_lt_compat; auto].
    + replace (RtoC m * (RtoC ((1 - Re (Tb s f Inf) * s) / (s - p)) * C1))%C with (RtoC (m * ((1 - Re (Tb s f Inf) * s) / (s - p)))) by (rewrite RtoC_mul; ring).
      f_equal. rewrite !Rmult_assoc. f_equal. simpl. destruct (do_s _ _ _ _ OK) as [X|X]; rewrite X in *; field; lra.
  - cbn [olist map cprod osign]. exists m. split; auto. rewrite Rmult_1_r. ring.
Qed.

Lemma pass_at_far s f prs od : design_ok s f prs od -> all_inf (flat prs od) -> flat prs od <> [] ->
  stages_of s f prs od (RtoC (- s)) = C0.
Proof.
  intros OK AI NE.
  assert (M : Cmod (RtoC (- s)) = 1) by (rewrite Cmod_RtoC; destruct (do_s _ _ _ _ OK) as [X|X]; rewrite X; unfold Rabs; destruct (Rcase_abs _); lra).
  pose proof (mag_prod s f prs od OK _ M) as E. fold (stages_of s f prs od (RtoC (- s))) in E.
  destruct (flat prs od) as [|cz l]; [contradiction|]. cbn [map rprod] in E.
  assert (F0 : fac (Tb s f) (RtoC (- s)) cz = 0).
  { unfold fac, dist2. rewrite (AI cz (or_introl eq_refl)). simpl. unfold Cnorm2; simpl. unfold Rdiv. ring. }
  rewrite F0, Rmult_0_l in E. destruct (stages_of s f prs od (RtoC (- s))) as [a b]. unfold Cnorm2 in E; simpl in E.
  apply C_eq; simpl; nra.
Qed.

(** ** Butterworth *)
Definition bw_pairs (n : nat) : list (C * ecomplex) := map (fun i => (Cpolar 1 (PI / 2 + thetak n i), Inf)) (seq 0 (n / 2)).
Definition bw_odd (n : nat) : option (R * ecomplex) := if Nat.odd n then Some (-1, Inf) else None.

Lemma half_split n : (2 * (n / 2) + (if Nat.odd n then 1 else 0) = n)%nat.
Proof. pose proof (Nat.div2_odd n) as E. rewrite Nat.div2_div in E. unfold Nat.b2n in E. lia. Qed.

Lemma butter_pairs_ok n cap w g : (0 < n <= cap)%nat -> forall m i done, (2 * (i + m) <= n)%nat -> length done = i ->
  butter_pairs (INR (n * 2)) i m (lay_of cap (map cpair done) (2 * i) w g) =
  Ok (lay_of cap (map cpair (done ++ map (fun i => (Cpolar 1 (PI / 2 + thetak n i), Inf)) (seq i m))) (2 * (i + m)) w g).
Proof.
  intros Hn. induction m as [|m IH]; intros i done HL HD.
  - cbn [butter_pairs seq map]. rewrite app_nil_r, Nat.add_0_r. reflexivity.
  - cbn [butter_pairs seq map]. rewrite rdiv_ok by (apply INR_neq0; lia). cbn [bind].
    replace (2 * i)%nat with (2 * length (map cpair done))%nat by (rewrite map_length; lia).
    rewrite insert_conj_ok by (rewrite map_length; lia). cbn [bind].
    replace (map cpair done ++ [_]) with (map cpair (done ++ [(Cpolar 1 (PI / 2 + thetak n i), Inf)])).
    2:{ rewrite map_app. cbn [map]. unfold cpair at 2. cbn [fst snd]. unfold thetak. rewrite (Nat.mul_comm 2 n). reflexivity. }
    replace (2 * length (map cpair (done ++ [(Cpolar 1 (PI / 2 + thetak n i), Inf)])))%nat with (2 * (i + 1))%nat
      by (rewrite map_length, app_length; cbn [length]; lia).
    rewrite IH; [|lia|rewrite app_length; cbn [length]; lia].
    replace (i + 1 + m)%nat with (i + S m)%nat by lia. rewrite <- app_assoc. cbn [app]. rewrite (Nat.add_comm i 1). reflexivity.
Qed.

Lemma seq_half_len n : length (bw_pairs n) = (n / 2)%nat.
Proof. unfold bw_pairs. rewrite map_length, seq_length. reflexivity. Qed.

Lemma bw_count n : (2 * length (bw_pairs n) + ocount (bw_odd n) = n)%nat.
Proof. rewrite seq_half_len. pose proof (half_split n). unfold bw_odd. destruct (Nat.odd n); cbn [ocount]; lia. Qed.

Lemma lay_new_of cap w g : lay_reset (lay_set_gain (lay_set_w (lay_new cap) w) g) = lay_of cap [] 0 w g.
Proof. unfold lay_of. cbn [length app]. rewrite Nat.sub_0_r. reflexivity. Qed.

Lemma butter_analog_ok checks cap n : (0 < n <= cap)%nat -> checks = false \/ Nat.odd n = false ->
  butter_analog checks (lay_new cap) n = Ok (analog cap (bw_pairs n) (bw_odd n) 0 1).
Proof.
  intros Hn HC. unfold butter_analog. change (length (pairs (lay_new cap))) with (length (repeat pz_default cap)). rewrite repeat_length.
  destruct (Nat.ltb_spec cap n); [lia|]. rewrite lay_new_of.
  pose proof (half_split n) as HS.
  change (lay_of cap [] 0 0 1) with (lay_of cap (map cpair []) (2 * 0) 0 1).
  rewrite (butter_pairs_ok n cap 0 1 Hn (n / 2) 0 []) by (auto; lia). cbn [bind app]. rewrite Nat.add_0_l.
  fold (bw_pairs n). unfold analog, bw_odd. destruct (Nat.odd n) eqn:Eo.
  - destruct HC as [->|X]; [|discriminate].
    replace (2 * (n / 2))%nat with (2 * length (map cpair (bw_pairs n)))%nat by (rewrite map_length, seq_half_len; lia).
    rewrite insert_single_ok by (auto; rewrite map_length, seq_half_len; lia).
    cbn [olist ocount]. rewrite map_length. reflexivity.
  - cbn [olist ocount]. rewrite app_nil_r, Nat.add_0_r, seq_half_len. reflexivity.
Qed.
Lemma butter_analog_ub cap n : (0 < n <= cap)%nat -> Nat.odd n = true -> butter_analog true (lay_new cap) n = UB.
Proof.
  intros Hn Eo. unfold butter_analog. change (length (pairs (lay_new cap))) with (length (repeat pz_default cap)). rewrite repeat_length.
  destruct (Nat.ltb_spec cap n); [lia|]. rewrite lay_new_of. pose proof (half_split n) as HS.
  change (lay_of cap [] 0 0 1) with (lay_of cap (map cpair []) (2 * 0) 0 1).
  rewrite (butter_pairs_ok n cap 0 1 Hn (n / 2) 0 []) by (auto; lia). cbn [bind app]. rewrite Nat.add_0_l.
  fold (bw_pairs n). rewrite Eo.
  replace (2 * (n / 2))%nat with (2 * length (map cpair (bw_pairs n)))%nat by (rewrite map_length, seq_half_len; lia).
  apply insert_single_ub. reflexivity.
Qed.

Lemma bw_pole n i : Cpolar 1 (PI / 2 + thetak n i) = cc (- sin (thetak n i)) (cos (thetak n i)).
Proof.
  unfold Cpolar, cc. apply C_eq; simpl; rewrite Rmult_1_l.
  - rewrite cos_plus, cos_PI2, sin_PI2. ring.
  - rewrite sin_plus, cos_PI2, sin_PI2. ring.
Qed.
Lemma thetak_range n i : (i < n / 2)%nat -> 0 < thetak n i < PI / 2.
Proof.
  intros Hi. pose proof (half_split n) as HS. pose proof PI_RGT_0.
  assert (HN : 0 < INR (2 * n)) by (apply lt_0_INR; destruct (Nat.odd n); lia).
  unfold thetak. assert (HI : 2 * INR i + 1 <= INR n - 1 + 0).
  { replace (2 * INR i + 1) with (INR (2 * i + 1)) by (rewrite plus_INR, mult_INR; simpl; ring).
    replace (INR n - 1 + 0) with (INR (n - 1)) by (rewrite minus_INR by lia; simpl; ring). apply le_INR. lia. }
  assert (INR (2 * n) = 2 * INR n) by (rewrite mult_INR; simpl; ring).
  pose proof (pos_INR i). split.
  - apply Rmult_lt_0_compat; [nra|apply Rinv_0_lt_compat; auto].
  - apply (Rmult_lt_reg_r (INR (2 * n))); auto. unfold Rdiv at 1. rewrite Rmult_assoc, Rinv_l by lra. nra.
Qed.

Lemma bw_design s f n : s = 1 \/ s = -1 -> 0 < f -> design_ok s f (bw_pairs n) (bw_odd n).
Proof.
  intros Hs Hf. constructor; auto.
  - intros cz HI. unfold bw_pairs in HI. apply in_map_iff in HI. destruct HI as [i [<- HI]]. apply in_seq in HI.
    cbn [fst snd]. split; [|split; [exact I|left; reflexivity]]. rewrite bw_pole. unfold cc; simpl.
    pose proof (thetak_range n i ltac:(lia)). pose proof PI_RGT_0. assert (0 < sin (thetak n i)) by (apply sin_gt_0; lra). lra.
  - intros cz HO. unfold bw_odd in HO. destruct (Nat.odd n); [|discriminate]. injection HO as <-. simpl. split; [lra|].
    split; auto. intros c E; discriminate.
Qed.
Lemma bw_inf n : all_inf (flat (bw_pairs n) (bw_odd n)).
Proof.
  intros cz HI. unfold flat in HI. apply in_app_or in HI. destruct HI as [HI|HI].
  - apply in_flat_map in HI. destruct HI as [x [Hx HI]]. unfold bw_pairs in Hx. apply in_map_iff in Hx. destruct Hx as [i [<- _]].
    destruct HI as [<-|[<-|[]]]; reflexivity.
  - unfold bw_odd in HI. destruct (Nat.odd n); [|destruct HI]. destruct HI as [<-|[]]. reflexivity.
Qed.
Lemma flat_nonempty prs od : (1 <= 2 * length prs + ocount od)%nat -> flat prs od <> [].
Proof. intros HL. destruct prs; [destruct od; [discriminate|simpl in HL; lia]|discriminate]. Qed.

Lemma rprod_flat_map {A B} (g : B -> R) (h : A -> list B) l : rprod (map g (flat_map h l)) = rprod (map (fun a => rprod (map g (h a))) l).
Proof. induction l; auto. cbn [flat_map map rprod]. rewrite map_app, rprod_app, IHl. reflexivity. Qed.

Lemma bw_product n x : (0 < n)%nat -> rprod (map (afac x) (flat (bw_pairs n) (bw_odd n))) = 1 / (1 + x ^ (2 * n)).
Proof.
  intros Hn. rewrite <- butter_product by auto. unfold flat. rewrite map_app, rprod_app, rprod_flat_map.
  unfold bw_pairs at 1. rewrite map_map, rprod_seq.
  assert (P : forall k, (k < n / 2)%nat -> 0 < (x * x - 2 * x * cos (thetak n k) + 1) * (x * x + 2 * x * cos (thetak n k) + 1)).
  { intros k Hk. pose proof (thetak_range n k Hk). pose proof PI_RGT_0. assert (0 < sin (thetak n k)) by (apply sin_gt_0; lra).
    pose proof (sc2 (thetak n k)). set (S := sin _) in *. set (K := cos _) in *. clearbody S K.
    assert (0 < S * S) by (apply Rmult_lt_0_compat; auto). pose proof (Rle_0_sqr (x - K)) as Q1. pose proof (Rle_0_sqr (x + K)) as Q2. unfold Rsqr in *.
    apply Rmult_lt_0_compat; lra. }
  rewrite (prodf_ext _ (fun k => / ((x * x - 2 * x * cos (thetak n k) + 1) * (x * x + 2 * x * cos (thetak n k) + 1)))).
  2:{ intros k Hk. cbn [map rprod]. unfold afac, cz_conj. cbn [fst snd econj]. rewrite bw_pole.
      pose proof (sc2 (thetak n k)) as S2. specialize (P k Hk).
      replace (Cnorm2 (cc (- sin (thetak n k)) (cos (thetak n k)))) with 1 by (unfold Cnorm2, cc; simpl; lra).
      replace (Cnorm2 (Cconj (cc (- sin (thetak n k)) (cos (thetak n k))))) with 1 by (unfold Cnorm2, cc; simpl; lra).
      replace (Cnorm2 (RtoC x * Ci - cc (- sin (thetak n k)) (cos (thetak n k)))%C) with (x * x - 2 * x * cos (thetak n k) + 1)
        by (unfold Cnorm2, cc; simpl; lra).
      replace (Cnorm2 (RtoC x * Ci - Cconj (cc (- sin (thetak n k)) (cos (thetak n k))))%C) with (x * x + 2 * x * cos (thetak n k) + 1)
        by (unfold Cnorm2, cc; simpl; lra).
      field. split; intros E; rewrite E in P; lra. }
  assert (PI' : forall (g : nat -> R) m, (forall k, (k < m)%nat -> 0 < g k) -> prodf (fun k => / g k) m = / prodf g m /\ 0 < prodf g m).
  { intros g. induction m as [|m IH]; intros Hg; [simpl; split; [field|lra]|]. cbn [prodf].
    destruct IH as [IE IP]; [intros; apply Hg; lia|]. specialize (Hg m ltac:(lia)). rewrite IE. split; [field; lra|nra]. }
  destruct (PI' _ _ P) as [E Q]. rewrite E. clear E. set (W := prodf _ _) in *. clearbody W.
  unfold bw_odd. destruct (Nat.odd n); cbn [olist map rprod].
  - unfold afac. cbn [fst snd]. replace (Cnorm2 (RtoC (-1))) with 1 by (unfold Cnorm2; simpl; ring).
    replace (Cnorm2 (RtoC x * Ci - RtoC (-1))%C) with (x * x + 1) by (unfold Cnorm2; simpl; ring).
    field. split; nra.
  - field. lra.
Qed.

(** ** Frequencies *)
Lemma tan_pos_range t : 0 < t < PI / 2 -> 0 < tan t /\ 0 < cos t.
Proof.
  intros Ht. assert (0 < cos t) by (apply cos_gt_0; lra). split; auto. apply Rmult_lt_0_compat; [apply sin_gt_0; lra|apply Rinv_0_lt_compat; auto].
Qed.
Lemma norm_range f fs : 0 < f -> 2 * f < fs -> 0 < PI * (f / fs) < PI / 2.
Proof.
  intros H1 H2. pose proof PI_RGT_0. assert (0 < f / fs) by (apply Rmult_lt_0_compat; [|apply Rinv_0_lt_compat]; lra).
  assert (f / fs < 1 / 2) by (apply (Rmult_lt_reg_r fs); [lra|]; unfold Rdiv at 1; rewrite Rmult_assoc, Rinv_l by lra; lra). nra.
Qed.
Lemma rtan_ok t : cos t <> 0 -> rtan t = Ok (tan t).
Proof. intros Hc. unfold rtan. destruct (Req_EM_T (cos t) 0); [contradiction|reflexivity]. Qed.

Lemma at_freq_half f fs : fs <> 0 -> at_freq f fs = Cexp (2 * (PI * (f / fs))).
Proof. intros. unfold at_freq. f_equal. field. auto. Qed.

Lemma Cexp_0' : Cexp 0 = RtoC 1. Proof. unfold Cexp. rewrite cos_0, sin_0. reflexivity. Qed.
Lemma Cexp_PI : Cexp PI = RtoC (-1). Proof. unfold Cexp. rewrite cos_PI, sin_PI. reflexivity. Qed.
Lemma Cmod_at_freq f fs : Cmod (at_freq f fs) = 1. Proof. apply Cmod_exp. Qed.

(** low side: z = e^{2it}; high side: the same with -z *)
Lemma low_side t : 0 <= t < PI / 2 -> (RtoC 1 * Cexp (2 * t) - C1 = RtoC (tan t) * Ci * (RtoC 1 * Cexp (2 * t) + C1))%C /\
   (RtoC 1 * Cexp (2 * t) + C1)%C <> C0.
Proof.
  intros Ht. change (RtoC 1) with C1. replace (C1 * Cexp (2 * t))%C with (Cexp (2 * t)) by ring. apply half_angle.
  assert (0 < cos t) by (apply cos_gt_0; lra). lra.
Qed.
Lemma high_side t : 0 < t <= PI / 2 -> (RtoC (-1) * Cexp (2 * t) - C1 = RtoC (- (cos t / sin t)) * Ci * (RtoC (-1) * Cexp (2 * t) + C1))%C /\
   (RtoC (-1) * Cexp (2 * t) + C1)%C <> C0.
Proof.
  intros Ht. assert (0 < sin t) by (apply sin_gt_0; lra).
  assert (E : (RtoC (-1) * Cexp (2 * t))%C = Cexp (2 * (t + PI / 2))).
  { rewrite <- Cexp_PI, <- Cexp_add. f_equal. field. }
  rewrite E. assert (C : cos (t + PI / 2) = - sin t) by (rewrite cos_plus, cos_PI2, sin_PI2; ring).
  assert (S : sin (t + PI / 2) = cos t) by (rewrite sin_plus, cos_PI2, sin_PI2; ring).
  replace (- (cos t / sin t)) with (tan (t + PI / 2)) by (unfold tan; rewrite C, S; field; lra).
  apply half_angle. rewrite C. lra.
Qed.

Definition ok_design prs od : Prop := forall s f, s = 1 \/ s = -1 -> 0 < f -> design_ok s f prs od.

Lemma count_half {A B} (prs : list A) (od : option B) n : (2 * length prs + ocount od = n)%nat -> (length prs + ocount od = (n + 1) / 2)%nat.
Proof.
  intros E. destruct od; cbn [ocount] in *; subst n.
  - replace (2 * length prs + 1 + 1)%nat with ((length prs + 1) * 2)%nat by lia. rewrite Nat.div_mul; lia.
  - rewrite !Nat.add_0_r, div2_odd. reflexivity.
Qed.

Lemma response_at_ref_pos m sg g : 0 < m -> (sg = 1 \/ sg = -1) -> (RtoC (g / Cmod (RtoC (m * sg))) * RtoC (m * sg))%C = RtoC (g * sg).
Proof.
  intros Hm Hs. rewrite Cmod_RtoC, Rabs_mult, (Rabs_pos_eq m) by lra.
  replace (Rabs sg) with 1 by (destruct Hs as [->| ->]; unfold Rabs; destruct (Rcase_abs _); lra).
  rewrite <- RtoC_mul. f_equal. field. lra.
Qed.

Definition built (cap n : nat) (c : cascade) : Prop :=
  num_stage c = ((n + 1) / 2)%nat /\ length (stages c) = ((cap + 1) / 2)%nat /\
  Forall (fun q => bq_stability q = true /\ at_rest q) (used c).

Lemma pass_low checks cap n prs od g fc fs : ok_design prs od -> all_inf (flat prs od) ->
  (2 * length prs + ocount od = n)%nat -> (1 <= n <= cap)%nat -> valid_freq fc fs ->
  exists c, bind (lp_transformer checks (fc / fs) (analog cap prs od 0 g) (lay_new cap)) (make_cascade cap) = Ok c /\ built cap n c /\
    (forall f, 0 <= f -> 2 * f < fs -> exists h, cas_response c (at_freq f fs) h /\
       Cnorm2 h = g * g * rprod (map (afac (tan (PI * (f / fs)) / tan (PI * (fc / fs)))) (flat prs od))) /\
    cas_response c at_dc (RtoC g) /\ cas_response c at_nyquist C0.
Proof.
  intros OD AI HN Hn [V1 V2]. assert (NEF : flat prs od <> []) by (apply flat_nonempty; lia). pose proof (norm_range fc fs V1 V2) as R1. destruct (tan_pos_range _ R1) as [TP CP].
  unfold lp_transformer. rewrite rtan_ok by lra. cbn [bind]. change (lay_w (analog cap prs od 0 g)) with 0.
  set (f := tan (PI * (fc / fs))) in *.
  assert (OK : design_ok 1 f prs od) by (apply OD; auto).
  destruct (design_cascade 1 f prs od OK checks (lp_transform f) cap 0 0 g) as [c [E [E1 [E2 [E3 E4]]]]].
  - intros d Hd. apply lp_transform_T; auto.
  - lia.
  - intros cz HI. rewrite (AI _ HI), Cexp_0'. simpl. intros X. injection X as X. lra.
  - exists c. split; [exact E|]. split; [repeat split; auto; rewrite E1; apply count_half; auto|].
    fold (stages_of 1 f prs od (Cexp 0)) in E4.
    assert (E4' : forall z, Cmod z = 1 -> cas_response c z (RtoC (g / Cmod (stages_of 1 f prs od (Cexp 0))) * stages_of 1 f prs od z)%C) by exact E4.
    clear E4. split; [|split].
    + intros f0 F1 F2. eexists. split; [apply E4'; apply Cmod_at_freq|].
      assert (R2 : 0 <= PI * (f0 / fs) < PI / 2).
      { destruct F1 as [F1|<-]; [pose proof (norm_range f0 fs F1 F2); lra|]. pose proof PI_RGT_0. unfold Rdiv at 1 2. rewrite !Rmult_0_l, Rmult_0_r. lra. }
      rewrite at_freq_half by lra. destruct (low_side _ R2) as [L1 L2].
      apply pass_mag; auto. apply Cexp_0'. apply Cmod_exp.
    + unfold at_dc. change C1 with (RtoC 1). specialize (E4' (RtoC 1) Cmod_1). rewrite Cexp_0' in E4'.
      destruct (pass_at_ref 1 f prs od OK AI) as [m [Pm Em]]. rewrite Em in E4'.
      rewrite response_at_ref_pos in E4' by (auto; destruct od; cbn [osign]; auto).
      replace (g * osign od 1) with g in E4' by (destruct od; cbn [osign]; ring). exact E4'.
    + unfold at_nyquist. specialize (E4' (RtoC (-1))). pose proof (pass_at_far 1 f prs od OK AI NEF) as Z. replace (- (1)) with (-1) in Z by ring. rewrite Z in E4'.
      replace C0 with (RtoC (g / Cmod (stages_of 1 f prs od (Cexp 0))) * C0)%C by ring. apply E4'.
      rewrite Cmod_RtoC. unfold Rabs; destruct (Rcase_abs _); lra.
Qed.

Lemma pass_high checks cap n prs od g fc fs : ok_design prs od -> all_inf (flat prs od) ->
  (2 * length prs + ocount od = n)%nat -> (1 <= n <= cap)%nat -> valid_freq fc fs ->
  exists c, bind (hp_transformer checks (fc / fs) (analog cap prs od 0 g) (lay_new cap)) (make_cascade cap) = Ok c /\ built cap n c /\
    (forall f, 0 < f -> 2 * f <= fs -> exists h, cas_response c (at_freq f fs) h /\
       Cnorm2 h = g * g * rprod (map (afac (- (tan (PI * (fc / fs)) * (cos (PI * (f / fs)) / sin (PI * (f / fs)))))) (flat prs od))) /\
    cas_response c at_nyquist (RtoC (g * osign od (-1))) /\ cas_response c at_dc C0.
Proof.
  intros OD AI HN Hn [V1 V2]. assert (NEF : flat prs od <> []) by (apply flat_nonempty; lia). pose proof (norm_range fc fs V1 V2) as R1. destruct (tan_pos_range _ R1) as [TP CP].
  unfold hp_transformer. rewrite rtan_ok by lra. cbn [bind]. rewrite rdiv_ok by lra. cbn [bind]. change (lay_w (analog cap prs od 0 g)) with 0.
  set (T := tan (PI * (fc / fs))) in *. set (f := 1 / T). assert (FP : 0 < f) by (apply Rmult_lt_0_compat; [lra|apply Rinv_0_lt_compat; auto]).
  assert (OK : design_ok (-1) f prs od) by (apply OD; auto).
  rewrite Rminus_0_r.
  destruct (design_cascade (-1) f prs od OK checks (hp_transform f) cap 0 PI g) as [c [E [E1 [E2 [E3 E4]]]]].
  - intros d Hd. apply hp_transform_T; auto.
  - lia.
  - intros cz HI. rewrite (AI _ HI), Cexp_PI. simpl. intros X. injection X as X. lra.
  - exists c. split; [exact E|]. split; [repeat split; auto; rewrite E1; apply count_half; auto|].
    assert (E4' : forall z, Cmod z = 1 -> cas_response c z (RtoC (g / Cmod (stages_of (-1) f prs od (Cexp PI))) * stages_of (-1) f prs od z)%C) by exact E4.
    clear E4. assert (M1 : Cmod (RtoC (-1)) = 1) by (rewrite Cmod_RtoC; unfold Rabs; destruct (Rcase_abs _); lra). split; [|split].
    + intros f0 F1 F2. eexists. split; [apply E4'; apply Cmod_at_freq|].
      assert (R2 : 0 < PI * (f0 / fs) <= PI / 2).
      { destruct F2 as [F2|F2]; [pose proof (norm_range f0 fs F1 F2); lra|]. pose proof PI_RGT_0. rewrite <- F2.
        replace (PI * (f0 / (2 * f0))) with (PI / 2) by (field; lra). lra. }
      rewrite at_freq_half by lra. destruct (high_side _ R2) as [L1 L2].
      assert (0 < sin (PI * (f0 / fs))) by (apply sin_gt_0; lra).
      rewrite (pass_mag (-1) f prs od PI g _ _ OK AI Cexp_PI (Cmod_exp _) L1 L2). do 3 f_equal.
      unfold f. f_equal. field. lra.
    + unfold at_nyquist. specialize (E4' (RtoC (-1)) M1). rewrite Cexp_PI in E4'.
      destruct (pass_at_ref (-1) f prs od OK AI) as [m [Pm Em]]. rewrite Em in E4'.
      rewrite response_at_ref_pos in E4' by (auto; destruct od; cbn [osign]; auto). exact E4'.
    + unfold at_dc. change C1 with (RtoC 1). specialize (E4' (RtoC 1) Cmod_1).
      pose proof (pass_at_far (-1) f prs od OK AI NEF) as Z. replace (- -1) with 1 in Z by ring. rewrite Z in E4'.
      replace C0 with (RtoC (g / Cmod (stages_of (-1) f prs od (Cexp PI))) * C0)%C by ring. exact E4'.
Qed.

Lemma ok_bw n : ok_design (bw_pairs n) (bw_odd n). Proof. intros s f Hs Hf. apply bw_design; auto. Qed.

(** ** The two pass designs *)
Lemma butter_low_lemma checks cap n fs fc : (1 <= n <= cap)%nat -> valid_freq fc fs -> checks = false \/ Nat.odd n = false ->
  exists c, butter_lowpass checks cap n fs fc = Ok c /\ built cap n c /\
    (forall f, 0 <= f -> 2 * f < fs -> exists h, cas_response c (at_freq f fs) h /\
       Cnorm2 h = 1 / (1 + (tan (PI * (f / fs)) / tan (PI * (fc / fs))) ^ (2 * n))) /\
    cas_response c at_dc C1 /\ cas_response c at_nyquist C0.
Proof.
  intros Hn HV HC. destruct (pass_low checks cap n (bw_pairs n) (bw_odd n) 1 fc fs (ok_bw n) (bw_inf n) (bw_count n) Hn HV)
    as [c [E [B [F [D N]]]]].
  exists c. split; [|split; [exact B|split; [|split; auto]]].
  - unfold butter_lowpass. rewrite rdiv_ok by (destruct HV; lra). cbn [bind]. rewrite butter_analog_ok by (auto; lia). exact E.
  - intros f F1 F2. destruct (F f F1 F2) as [h [Hh Hm]]. exists h. split; auto. rewrite Hm, bw_product by lia. ring.
Qed.
Lemma butter_high_lemma checks cap n fs fc : (1 <= n <= cap)%nat -> valid_freq fc fs -> checks = false \/ Nat.odd n = false ->
  exists c, butter_highpass checks cap n fs fc = Ok c /\ built cap n c /\
    (forall f, 0 < f -> 2 * f < fs -> exists h, cas_response c (at_freq f fs) h /\
       Cnorm2 h = 1 / (1 + (tan (PI * (fc / fs)) / tan (PI * (f / fs))) ^ (2 * n))) /\
    cas_response c at_nyquist (RtoC (if Nat.odd n then -1 else 1)) /\ cas_response c at_dc C0.
Proof.
  intros Hn HV HC. destruct (pass_high checks cap n (bw_pairs n) (bw_odd n) 1 fc fs (ok_bw n) (bw_inf n) (bw_count n) Hn HV)
    as [c [E [B [F [D N]]]]].
  exists c. split; [|split; [exact B|split; [|split; auto]]].
  - unfold butter_highpass. rewrite rdiv_ok by (destruct HV; lra). cbn [bind]. rewrite butter_analog_ok by (auto; lia). exact E.
  - intros f F1 F2. destruct (F f F1 ltac:(lra)) as [h [Hh Hm]]. exists h. split; auto. rewrite Hm, bw_product by lia.
    rewrite !Rmult_1_l. rewrite !pow_mult.
    pose proof (norm_range f fs F1 F2) as R1. destruct (tan_pos_range _ R1) as [TP CP].
    assert (0 < sin (PI * (f / fs))) by (apply sin_gt_0; lra).
    replace ((- (tan (PI * (fc / fs)) * (cos (PI * (f / fs)) / sin (PI * (f / fs))))) ^ 2) with ((tan (PI * (fc / fs)) / tan (PI * (f / fs))) ^ 2); auto.
    assert (EC : cos (PI * (f / fs)) / sin (PI * (f / fs)) = / tan (PI * (f / fs))) by (unfold tan; field; lra).
    rewrite EC. unfold Rdiv. ring.
  - rewrite Rmult_1_l in D. unfold bw_odd in D. destruct (Nat.odd n); exact D.
Qed.
