From Coq Require Import Psatz Lia List.
From Verif Require Import RealBase RealBaseProofs BaseProofs Cplx CplxProofs PolyProofs BiquadModel BiquadSpec BiquadProofs.
From Verif Require Import StabilityProofs CascadeProofs DesignModel DesignSpec DesignProofs DesignProofs2 LayoutModel LayoutProofs BilinearProofs ButterProofs.
Import ListNotations.
Local Open Scope R_scope.

Definition sh_pole (n i : nat) : C := cc (- sin (thetak n i)) (- cos (thetak n i)).
Definition sh_pairs (g : R) (n : nat) : list (C * ecomplex) :=
  map (fun i => (Cscal (/ g) (sh_pole n i), Fin (Cscal g (sh_pole n i)))) (seq 0 (n / 2)).
Definition sh_odd (g : R) (n : nat) : option (R * ecomplex) := if Nat.odd n then Some (- (/ g), Fin (RtoC (- g))) else None.

Lemma sh_angle n i : (0 < n)%nat -> PI * (1 / 2 - (2 * INR (S i) - 1) / INR (n * 2)) = PI / 2 - thetak n i.
Proof. intros Hn. unfold thetak. rewrite (Nat.mul_comm n 2), S_INR. assert (INR (2 * n) <> 0) by (apply INR_neq0; lia). field. auto. Qed.
Lemma sh_polar r n i : (0 < n)%nat -> Cpolar (- r) (PI / 2 - thetak n i) = Cscal r (sh_pole n i).
Proof.
  intros Hn. unfold Cpolar, sh_pole, cc. rewrite cos_minus, sin_minus, cos_PI2, sin_PI2. apply C_eq; simpl; ring.
Qed.

Lemma shelf_pairs_ok g n cap w k : g <> 0 -> (0 < n <= cap)%nat -> forall m i done, (2 * (i + m) <= n)%nat -> length done = i ->
  shelf_pairs false (INR (n * 2)) (- (/ g)) (- g) (S i) m (lay_of cap (map cpair done) (2 * i) w k) =
  Ok (lay_of cap (map cpair (done ++ map (fun i => (Cscal (/ g) (sh_pole n i), Fin (Cscal g (sh_pole n i)))) (seq i m))) (2 * (i + m)) w k).
Proof.
  intros Hg Hn. induction m as [|m IH]; intros i done HL HD.
  - cbn [shelf_pairs seq map]. rewrite app_nil_r, Nat.add_0_r. reflexivity.
  - cbn [shelf_pairs seq map]. rewrite rdiv_ok by (apply INR_neq0; lia). cbn [bind]. rewrite sh_angle by lia.
    unfold std_polar. cbn [bind]. rewrite !sh_polar by lia.
    replace (2 * i)%nat with (2 * length (map cpair done))%nat by (rewrite map_length; lia).
    rewrite insert_conj_ok by (rewrite map_length; lia). cbn [bind].
    replace (map cpair done ++ [_]) with (map cpair (done ++ [(Cscal (/ g) (sh_pole n i), Fin (Cscal g (sh_pole n i)))])) by (rewrite map_app; reflexivity).
    replace (2 * length (map cpair (done ++ [(Cscal (/ g) (sh_pole n i), Fin (Cscal g (sh_pole n i)))])))%nat with (2 * (i + 1))%nat
      by (rewrite map_length, app_length; cbn [length]; lia).
    replace (S i + 1)%nat with (S (i + 1)) by lia.
    rewrite IH; [|lia|rewrite app_length; cbn [length]; lia].
    replace (i + 1 + m)%nat with (i + S m)%nat by lia. rewrite <- app_assoc. cbn [app]. rewrite (Nat.add_comm i 1). reflexivity.
Qed.

Lemma sh_len g n : length (sh_pairs g n) = (n / 2)%nat.
Proof. unfold sh_pairs. rewrite map_length, seq_length. reflexivity. Qed.
Lemma sh_count g n : (2 * length (sh_pairs g n) + ocount (sh_odd g n) = n)%nat.
Proof. rewrite sh_len. pose proof (half_split n). unfold sh_odd. destruct (Nat.odd n); cbn [ocount]; lia. Qed.

Definition sh_g (n : nat) (gain : R) : R := Rpower (pow10 (gain / 20)) (1 / INR (n * 2)).
Lemma sh_g_pos n gain : 0 < sh_g n gain. Proof. apply exp_pos. Qed.
Lemma sh_g_pow n gain : (0 < n)%nat -> sh_g n gain ^ (2 * n) = pow10 (gain / 20).
Proof.
  intros Hn. rewrite <- Rpower_pow by apply sh_g_pos. unfold sh_g. rewrite Rpower_mult.
  replace (1 / INR (n * 2) * INR (2 * n)) with 1; [apply Rpower_1, pow10_pos|].
  rewrite (Nat.mul_comm n 2). field. apply INR_neq0; lia.
Qed.

Lemma butter_shelf_ok cap n gain : (0 < n <= cap)%nat ->
  butter_shelf_analog false (lay_new cap) n gain = Ok (analog cap (sh_pairs (sh_g n gain) n) (sh_odd (sh_g n gain) n) PI 1).
Proof.
  intros Hn. unfold butter_shelf_analog. change (length (pairs (lay_new cap))) with (length (repeat pz_default cap)). rewrite repeat_length.
  destruct (Nat.ltb_spec cap n); [lia|]. rewrite lay_new_of. rewrite rdiv_ok by (apply INR_neq0; lia). cbn [bind].
  change (Rpower (pow10 (gain / 20)) (1 / INR (n * 2))) with (sh_g n gain). pose proof (sh_g_pos n gain) as GP. set (g := sh_g n gain) in *. clearbody g.
  rewrite rdiv_ok by lra. cbn [bind]. replace (1 / g) with (/ g) by (field; lra).
  pose proof (half_split n) as HS.
  change (lay_of cap [] 0 PI 1) with (lay_of cap (map cpair []) (2 * 0) PI 1).
  rewrite (shelf_pairs_ok g n cap PI 1 ltac:(lra) Hn (n / 2) 0 []) by (auto; lia). cbn [bind app]. rewrite Nat.add_0_l.
  fold (sh_pairs g n). unfold analog, sh_odd. destruct (Nat.odd n) eqn:Eo.
  - replace (2 * (n / 2))%nat with (2 * length (map cpair (sh_pairs g n)))%nat by (rewrite map_length, sh_len; lia).
    rewrite insert_single_ok by (auto; rewrite map_length, sh_len; lia).
    cbn [olist ocount]. rewrite map_length. reflexivity.
  - cbn [olist ocount]. rewrite app_nil_r, Nat.add_0_r, sh_len. reflexivity.
Qed.
(** With the precondition of std::polar enforced, every order >= 2 fails. *)
Lemma butter_shelf_ub cap n gain : (2 <= n)%nat -> butter_shelf_analog true (lay_new cap) n gain = UB.
Proof.
  intros Hn. unfold butter_shelf_analog. change (length (pairs (lay_new cap))) with (length (repeat pz_default cap)). rewrite repeat_length.
  destruct (Nat.ltb_spec cap n); [reflexivity|]. rewrite lay_new_of. rewrite rdiv_ok by (apply INR_neq0; lia). cbn [bind].
  change (Rpower (pow10 (gain / 20)) (1 / INR (n * 2))) with (sh_g n gain). pose proof (sh_g_pos n gain) as GP. set (g := sh_g n gain) in *. clearbody g.
  rewrite rdiv_ok by lra. cbn [bind]. 
  assert (Hh : (1 <= n / 2)%nat) by (apply Nat.div_le_lower_bound; lia).
  destruct (n / 2)%nat as [|m]; [lia|]. cbn [shelf_pairs]. rewrite rdiv_ok by (apply INR_neq0; lia). cbn [bind]. unfold std_polar at 1.
  destruct (Rle_dec 0 (- (1 / g))) as [B|_]; [|reflexivity].
  assert (0 < 1 / g) by (apply Rmult_lt_0_compat; [lra|apply Rinv_0_lt_compat; auto]). lra.
Qed.
(** The first order design uses no conjugate pair and is unaffected. *)
Lemma butter_shelf_first checks cap gain : (1 <= cap)%nat ->
  butter_shelf_analog checks (lay_new cap) 1 gain = Ok (analog cap (sh_pairs (sh_g 1 gain) 1) (sh_odd (sh_g 1 gain) 1) PI 1).
Proof.
  intros Hc. rewrite <- (butter_shelf_ok cap 1 gain) by lia. unfold butter_shelf_analog.
  change (length (pairs (lay_new cap))) with (length (repeat pz_default cap)). rewrite repeat_length.
  destruct (Nat.ltb_spec cap 1); [lia|]. rewrite lay_new_of. rewrite rdiv_ok by (apply INR_neq0; lia). cbn [bind].
  change (Rpower (pow10 (gain / 20)) (1 / INR (1 * 2))) with (sh_g 1 gain). pose proof (sh_g_pos 1 gain) as GP. set (g := sh_g 1 gain) in *. clearbody g.
  rewrite rdiv_ok by lra. cbn [bind]. change (1 / 2)%nat with O. cbn [shelf_pairs bind Nat.odd negb Nat.even].
  change (lay_of cap [] 0 PI 1) with (lay_of cap [] (2 * length (@nil pz)) PI 1).
  rewrite !insert_single_ok; auto. right. split; auto. simpl. destruct (Req_EM_T 0 0); [reflexivity|lra].
Qed.

Lemma sh_design g : 0 < g -> forall n, ok_design (sh_pairs g n) (sh_odd g n).
Proof.
  intros Hg n s f Hs Hf. assert (0 < / g) by (apply Rinv_0_lt_compat; auto). constructor; auto.
  - intros cz HI. unfold sh_pairs in HI. apply in_map_iff in HI. destruct HI as [i [<- HI]]. apply in_seq in HI.
    cbn [fst snd]. pose proof (thetak_range n i ltac:(lia)). pose proof PI_RGT_0. assert (0 < sin (thetak n i)) by (apply sin_gt_0; lra).
    assert (0 < cos (thetak n i)) by (apply cos_gt_0; lra).
    unfold sh_pole, cc. simpl. split; [nra|]. split; [nra|]. right. nra.
  - intros cz HO. unfold sh_odd in HO. destruct (Nat.odd n); [|discriminate]. injection HO as <-. simpl. split; [lra|].
    split; [lra|]. intros c E; injection E as <-. reflexivity.
Qed.
Lemma sh_fin g n : 0 < g -> all_fin (flat (sh_pairs g n) (sh_odd g n)).
Proof.
  intros Hg cz HI. unfold flat in HI. apply in_app_or in HI. destruct HI as [HI|HI].
  - apply in_flat_map in HI. destruct HI as [x [Hx HI]]. unfold sh_pairs in Hx. apply in_map_iff in Hx. destruct Hx as [i [<- Hi]]. apply in_seq in Hi.
    pose proof (thetak_range n i ltac:(lia)). pose proof PI_RGT_0. assert (0 < sin (thetak n i)) by (apply sin_gt_0; lra).
    destruct HI as [<-|[<-|[]]]; cbn [cz_conj fst snd econj]; eexists; (split; [reflexivity|unfold sh_pole, cc; simpl; nra]).
  - unfold sh_odd in HI. destruct (Nat.odd n); [|destruct HI]. destruct HI as [<-|[]]. eexists; split; [reflexivity|]. simpl. lra.
Qed.

Definition pk (n k : nat) (x : R) : R := (x * x - 2 * x * cos (thetak n k) + 1) * (x * x + 2 * x * cos (thetak n k) + 1).
Lemma pk_pos n k x : (k < n / 2)%nat -> 0 < pk n k x.
Proof.
  intros Hk. unfold pk. pose proof (thetak_range n k Hk). pose proof PI_RGT_0. assert (0 < sin (thetak n k)) by (apply sin_gt_0; lra).
  pose proof (sc2 (thetak n k)). set (S := sin _) in *. set (K := cos _) in *. clearbody S K.
  assert (0 < S * S) by (apply Rmult_lt_0_compat; auto). pose proof (Rle_0_sqr (x - K)) as Q1. pose proof (Rle_0_sqr (x + K)) as Q2. unfold Rsqr in *.
  apply Rmult_lt_0_compat; lra.
Qed.
Lemma prodf_quot (u v : nat -> R) (k : R) m : (forall i, (i < m)%nat -> 0 < v i) ->
  prodf (fun i => k * (u i / v i)) m = k ^ m * (prodf u m / prodf v m) /\ 0 < prodf v m.
Proof.
  induction m as [|m IH]; intros HV; [simpl; split; [field|lra]|]. destruct IH as [IE IP]; [intros; apply HV; lia|].
  specialize (HV m ltac:(lia)). cbn [prodf pow]. rewrite IE. split; [field; split; lra|nra].
Qed.

Lemma sh_product g n x : 0 < g -> (0 < n)%nat ->
  rprod (map (afac x) (flat (sh_pairs g n) (sh_odd g n))) = (g ^ (2 * n) + x ^ (2 * n)) / (/ g ^ (2 * n) + x ^ (2 * n)).
Proof.
  intros Hg Hn. assert (0 < / g) by (apply Rinv_0_lt_compat; auto).
  unfold flat. rewrite map_app, rprod_app, rprod_flat_map.
  unfold sh_pairs at 1. rewrite map_map, rprod_seq.
  rewrite (prodf_ext _ (fun k => g ^ 8 * (pk n k (x / g) / pk n k (x * g)))).
  2:{ intros k Hk. cbn [map rprod]. unfold afac, cz_conj. cbn [fst snd econj].
      pose proof (sc2 (thetak n k)) as S2. pose proof (pk_pos n k (x * g) Hk) as P2.
      assert (A : forall r, 0 < r -> Cnorm2 (RtoC x * Ci - Cscal r (sh_pole n k))%C = r * r * ((x / r) * (x / r) + 2 * (x / r) * cos (thetak n k) + 1)).
      { intros r Hr. unfold Cnorm2, sh_pole, cc; simpl. set (S := sin _) in *. set (K := cos _) in *. clearbody S K.
        transitivity (x * x + 2 * x * r * K + r * r * (S * S + K * K)); [ring|]. rewrite S2. field. lra. }
      assert (B : forall r, 0 < r -> Cnorm2 (RtoC x * Ci - Cconj (Cscal r (sh_pole n k)))%C = r * r * ((x / r) * (x / r) - 2 * (x / r) * cos (thetak n k) + 1)).
      { intros r Hr. unfold Cnorm2, sh_pole, cc; simpl. set (S := sin _) in *. set (K := cos _) in *. clearbody S K.
        transitivity (x * x - 2 * x * r * K + r * r * (S * S + K * K)); [ring|]. rewrite S2. field. lra. }
      rewrite !A, !B by auto. replace (x / / g) with (x * g) by (field; lra).
      unfold pk in *. set (K := cos _) in *. clearbody K.
      assert (F1 : x * g * (x * g) + 2 * (x * g) * K + 1 <> 0) by (intros E; rewrite E in P2; lra).
      assert (F2 : x * g * (x * g) - 2 * (x * g) * K + 1 <> 0) by (intros E; rewrite E in P2; lra).
      field. repeat split; try lra; intros E; first [apply F1; lra | apply F2; lra]. }
  destruct (prodf_quot (fun k => pk n k (x / g)) (fun k => pk n k (x * g)) (g ^ 8) (n / 2)) as [E Q]; [intros; apply pk_pos; auto|].
  rewrite E. clear E.
  pose proof (butter_product n (x / g) Hn) as B1. pose proof (butter_product n (x * g) Hn) as B2.
  change (prodf (fun k => (x / g * (x / g) - 2 * (x / g) * cos (thetak n k) + 1) * (x / g * (x / g) + 2 * (x / g) * cos (thetak n k) + 1)) (n / 2))
    with (prodf (fun k => pk n k (x / g)) (n / 2)) in B1.
  change (prodf (fun k => (x * g * (x * g) - 2 * (x * g) * cos (thetak n k) + 1) * (x * g * (x * g) + 2 * (x * g) * cos (thetak n k) + 1)) (n / 2))
    with (prodf (fun k => pk n k (x * g)) (n / 2)) in B2.
  set (U := prodf (fun k => pk n k (x / g)) (n / 2)) in *. set (V := prodf (fun k => pk n k (x * g)) (n / 2)) in *. clearbody U V.
  assert (GP : 0 < g ^ (2 * n)) by (apply pow_lt; auto).
  assert (XP : 0 <= x ^ (2 * n)) by (rewrite pow_mult; apply pow_le; nra).
  assert (R1 : g ^ (2 * n) * g ^ (2 * n) * ((1 + (x / g) ^ (2 * n)) / (1 + (x * g) ^ (2 * n))) = (g ^ (2 * n) + x ^ (2 * n)) / (/ g ^ (2 * n) + x ^ (2 * n))).
  { unfold Rdiv at 2. rewrite !Rpow_mult_distr, pow_inv. field. repeat split; nra. }
  rewrite <- R1, <- B1, <- B2.
  pose proof (half_split n) as HS.
  assert (GG : (g ^ 8) ^ (n / 2) * (if Nat.odd n then g ^ 4 else 1) = g ^ (2 * n) * g ^ (2 * n)).
  { rewrite <- pow_mult, <- pow_add. destruct (Nat.odd n).
    - rewrite <- pow_add. f_equal. lia.
    - rewrite Rmult_1_r. f_equal. lia. }
  rewrite <- GG. unfold sh_odd. destruct (Nat.odd n); cbn [olist map rprod].
  - unfold afac. cbn [fst snd]. replace (Cnorm2 (RtoC x * Ci - RtoC (- g))%C) with (x * x + g * g) by (unfold Cnorm2; simpl; ring).
    replace (Cnorm2 (RtoC x * Ci - RtoC (- / g))%C) with (x * x + / g * / g) by (unfold Cnorm2; simpl; ring).
    field. repeat split; nra.
  - field. lra.
Qed.

Lemma shelf_at_ref s f prs od : design_ok s f prs od -> all_fin (flat prs od) ->
  (forall cz, od = Some cz -> exists z, snd cz = Fin (RtoC z) /\ z < 0) ->
  exists m, 0 < m /\ stages_of s f prs od (RtoC (- s)) = RtoC (m * osign od (- s)).
Proof.
  intros OK AI OR. assert (Hms : - s = 1 \/ - s = -1) by (destruct (do_s _ _ _ _ OK); subst; [right|left]; lra).
  unfold stages_of. rewrite map_app, cprod_app.
  assert (Hne : forall c, Cmod c < 1 -> (RtoC (- s) - c)%C <> C0).
  { intros c Hc E. assert (E2 : c = RtoC (- s)) by (transitivity (RtoC (- s) - (RtoC (- s) - c))%C; [|rewrite E]; ring).
    rewrite E2, Cmod_RtoC in Hc. destruct Hms as [X|X]; rewrite X in Hc; unfold Rabs in Hc; destruct (Rcase_abs _); lra. }
  assert (A : exists m, 0 < m /\ cprod (map (fun p => H (mkb p) (RtoC (- s))) (map (dpair (Tb s f)) prs)) = RtoC m).
  { assert (HP : forall cz, In cz prs -> In cz prs) by auto. revert HP. generalize prs at 1 3. intros l HP. 
    induction l as [|cz l IH]; [exists 1; split; [lra|reflexivity]|].
    destruct IH as [m [Pm Em]]; [intros; apply HP; right; auto|].
    assert (HI : In cz prs) by (apply HP; left; auto).
    assert (HF : In cz (flat prs od)) by (apply in_or_app; left; apply in_flat_map; exists cz; split; [auto|left; auto]).
    assert (HF2 : In (cz_conj cz) (flat prs od)) by (apply in_or_app; left; apply in_flat_map; exists cz; split; [auto|right; left; auto]).
    cbn [map cprod]. unfold mkb at 1. rewrite (mkb_pair s f prs od OK cz HI), Em.
    pose proof (pole_in s f prs od OK cz HF) as Hst.
    rewrite pair_at_real by auto. rewrite <- RtoC_mul. eexists. split; [|reflexivity].
    apply Rmult_lt_0_compat; auto. apply Rmult_lt_0_compat; [|apply Rinv_0_lt_compat]; apply C_neq0; apply Hne; auto.
    destruct (AI _ HF2) as [z [Ez Hz]]. cbn [cz_conj snd] in Ez. rewrite Ez. apply Tb_stable; [apply (do_s _ _ _ _ OK)|apply (do_f _ _ _ _ OK)|auto]. }
  destruct A as [m [Pm Em]]. rewrite Em.
  destruct od as [cz|] eqn:Eo.
  - cbn [olist map cprod osign]. unfold mkb. rewrite (mkb_single s f prs (Some cz) OK cz eq_refl).
    assert (HF : In (RtoC (fst cz), snd cz) (flat prs (Some cz))) by (apply in_or_app; right; left; auto).
    destruct (OR cz eq_refl) as [zt [Ez Hz]]. rewrite Ez.
    pose proof (pole_in s f prs _ OK _ HF) as Hst. cbn [fst] in Hst.
    pose proof (Tb_stable s f (RtoC zt) (do_s _ _ _ _ OK) (do_f _ _ _ _ OK) Hz) as Hsz.
    assert (EP : forall x, RtoC (Re (Tb s f (Fin (RtoC x)))) = Tb s f (Fin (RtoC x))).
    { intros x. apply C_eq; auto. cbn [Im RtoC snd]. symmetry. apply (T_im s f). intros y Hy; injection Hy as <-. reflexivity. }
    rewrite <- EP, Cmod_RtoC in Hst. rewrite <- EP, Cmod_RtoC in Hsz.
    set (p := Re (Tb s f (Fin (RtoC (fst cz))))) in *. clearbody p. set (q := Re (Tb s f (Fin (RtoC zt)))) in *. clearbody q.
    destruct (single_at_real p q (- s) Hst Hms) as [E P]. rewrite E.
    assert (Q : 0 < 1 - q * - s) by (unfold Rabs in Hsz; destruct (Rcase_abs q); destruct Hms as [X|X]; rewrite X; lra).
    exists (m * ((1 - q * - s) / (- s * (- s - p)))). split.
    + apply Rmult_lt_0_compat; auto. apply Rmult_lt_0_compat; [lra|apply Rinv_0_lt_compat; auto].
    + replace (RtoC m * (RtoC ((1 - q * - s) / (- s - p)) * C1))%C with (RtoC (m * ((1 - q * - s) / (- s - p)))) by (rewrite RtoC_mul; ring).
      f_equal. rewrite !Rmult_assoc. f_equal. destruct Hms as [X|X]; rewrite X in *; field; lra.
  - cbn [olist map cprod osign]. exists m. split; auto. rewrite Rmult_1_r. ring.
Qed.

Lemma sh_odd_real g n : 0 < g -> forall cz, sh_odd g n = Some cz -> exists z, snd cz = Fin (RtoC z) /\ z < 0.
Proof. intros Hg cz E. unfold sh_odd in E. destruct (Nat.odd n); [|discriminate]. injection E as <-. exists (- g). simpl. split; [reflexivity|lra]. Qed.

Lemma shelf_low checks cap n prs od g fc fs : ok_design prs od -> all_fin (flat prs od) ->
  (forall cz, od = Some cz -> exists z, snd cz = Fin (RtoC z) /\ z < 0) ->
  (2 * length prs + ocount od = n)%nat -> (1 <= n <= cap)%nat -> valid_freq fc fs ->
  exists c, bind (lp_transformer checks (fc / fs) (analog cap prs od PI g) (lay_new cap)) (make_cascade cap) = Ok c /\ built cap n c /\
    (forall f, 0 <= f -> 2 * f < fs -> exists h, cas_response c (at_freq f fs) h /\
       Cnorm2 h = g * g * rprod (map (afac (tan (PI * (f / fs)) / tan (PI * (fc / fs)))) (flat prs od))) /\
    cas_response c at_nyquist (RtoC (g * osign od (-1))).
Proof.
  intros OD AI OR HN Hn [V1 V2]. pose proof (norm_range fc fs V1 V2) as R1. destruct (tan_pos_range _ R1) as [TP CP].
  unfold lp_transformer. rewrite rtan_ok by lra. cbn [bind]. change (lay_w (analog cap prs od PI g)) with PI.
  set (f := tan (PI * (fc / fs))) in *.
  assert (OK : design_ok 1 f prs od) by (apply OD; auto).
  destruct (design_cascade 1 f prs od OK checks (lp_transform f) cap PI PI g) as [c [E [E1 [E2 [E3 E4]]]]].
  - intros d Hd. apply lp_transform_T; auto.
  - lia.
  - intros cz HI. destruct (AI _ HI) as [zt [Z1 Z2]]. rewrite Z1. intros X.
    pose proof (Tb_stable 1 f zt (or_introl eq_refl) TP Z2) as B. rewrite <- X, Cmod_exp in B. lra.
  - exists c. split; [exact E|]. split; [repeat split; auto; rewrite E1; apply count_half; auto|].
    assert (E4' : forall z, Cmod z = 1 -> cas_response c z (RtoC (g / Cmod (stages_of 1 f prs od (Cexp PI))) * stages_of 1 f prs od z)%C) by exact E4.
    clear E4. assert (EW : Cexp PI = RtoC (- (1))) by (rewrite Cexp_PI; f_equal; ring). split.
    + intros f0 F1 F2. eexists. split; [apply E4'; apply Cmod_at_freq|].
      assert (R2 : 0 <= PI * (f0 / fs) < PI / 2).
      { destruct F1 as [F1|<-]; [pose proof (norm_range f0 fs F1 F2); lra|]. pose proof PI_RGT_0. replace (PI * (0 / fs)) with 0 by (unfold Rdiv; ring). lra. }
      rewrite at_freq_half by lra. destruct (low_side _ R2) as [L1 L2].
      apply shelf_mag; auto. apply Cmod_exp.
    + unfold at_nyquist. rewrite <- Cexp_PI. specialize (E4' (Cexp PI) (Cmod_exp _)).
      destruct (shelf_at_ref 1 f prs od OK AI OR) as [m [Pm Em]]. rewrite EW in E4' |- *. rewrite Em in E4'.
      replace (- (1)) with (-1) in * by ring.
      rewrite response_at_ref_pos in E4' by (auto; destruct od; cbn [osign]; auto). exact E4'.
Qed.

Lemma shelf_high checks cap n prs od g fc fs : ok_design prs od -> all_fin (flat prs od) ->
  (forall cz, od = Some cz -> exists z, snd cz = Fin (RtoC z) /\ z < 0) ->
  (2 * length prs + ocount od = n)%nat -> (1 <= n <= cap)%nat -> valid_freq fc fs ->
  exists c, bind (hp_transformer checks (fc / fs) (analog cap prs od PI g) (lay_new cap)) (make_cascade cap) = Ok c /\ built cap n c /\
    (forall f, 0 < f -> 2 * f <= fs -> exists h, cas_response c (at_freq f fs) h /\
       Cnorm2 h = g * g * rprod (map (afac (- (tan (PI * (fc / fs)) * (cos (PI * (f / fs)) / sin (PI * (f / fs)))))) (flat prs od))) /\
    cas_response c at_dc (RtoC g).
Proof.
  intros OD AI OR HN Hn [V1 V2]. pose proof (norm_range fc fs V1 V2) as R1. destruct (tan_pos_range _ R1) as [TP CP].
  unfold hp_transformer. rewrite rtan_ok by lra. cbn [bind]. rewrite rdiv_ok by lra. cbn [bind]. change (lay_w (analog cap prs od PI g)) with PI.
  set (T := tan (PI * (fc / fs))) in *. set (f := 1 / T). assert (FP : 0 < f) by (apply Rmult_lt_0_compat; [lra|apply Rinv_0_lt_compat; auto]).
  assert (OK : design_ok (-1) f prs od) by (apply OD; auto).
  replace (PI - PI) with 0 by ring.
  destruct (design_cascade (-1) f prs od OK checks (hp_transform f) cap PI 0 g) as [c [E [E1 [E2 [E3 E4]]]]].
  - intros d Hd. apply hp_transform_T; auto.
  - lia.
  - intros cz HI. destruct (AI _ HI) as [zt [Z1 Z2]]. rewrite Z1. intros X.
    pose proof (Tb_stable (-1) f zt (or_intror eq_refl) FP Z2) as B. rewrite <- X, Cmod_exp in B. lra.
  - exists c. split; [exact E|]. split; [repeat split; auto; rewrite E1; apply count_half; auto|].
    assert (E4' : forall z, Cmod z = 1 -> cas_response c z (RtoC (g / Cmod (stages_of (-1) f prs od (Cexp 0))) * stages_of (-1) f prs od z)%C) by exact E4.
    clear E4. assert (EW : Cexp 0 = RtoC (- (-1))) by (rewrite Cexp_0'; f_equal; ring). split.
    + intros f0 F1 F2. eexists. split; [apply E4'; apply Cmod_at_freq|].
      assert (R2 : 0 < PI * (f0 / fs) <= PI / 2).
      { destruct F2 as [F2|F2]; [pose proof (norm_range f0 fs F1 F2); lra|]. pose proof PI_RGT_0. rewrite <- F2.
        replace (PI * (f0 / (2 * f0))) with (PI / 2) by (field; lra). lra. }
      rewrite at_freq_half by lra. destruct (high_side _ R2) as [L1 L2].
      assert (0 < sin (PI * (f0 / fs))) by (apply sin_gt_0; lra).
      rewrite (shelf_mag (-1) f prs od 0 g _ _ OK AI EW (Cmod_exp _) L1 L2). do 3 f_equal.
      unfold f. f_equal. field. lra.
    + unfold at_dc. change C1 with (RtoC 1). rewrite <- Cexp_0'. specialize (E4' (Cexp 0) (Cmod_exp _)).
      destruct (shelf_at_ref (-1) f prs od OK AI OR) as [m [Pm Em]]. rewrite EW in E4' |- *. rewrite Em in E4'.
      replace (- (-1)) with 1 in * by ring.
      rewrite response_at_ref_pos in E4' by (auto; destruct od; cbn [osign]; auto).
      replace (g * osign od 1) with g in E4' by (destruct od; cbn [osign]; ring). exact E4'.
Qed.

Definition shelf_gain2 (V y : R) : R := (V + y) / (/ V + y).

Lemma butter_lowshelf_lemma checks cap n fs fc gain : (1 <= n <= cap)%nat -> valid_freq fc fs -> checks = false \/ n = 1%nat ->
  exists c, butter_lowshelf checks cap n fs fc gain = Ok c /\ built cap n c /\
    (forall f, 0 <= f -> 2 * f < fs -> exists h, cas_response c (at_freq f fs) h /\
       Cnorm2 h = shelf_gain2 (pow10 (gain / 20)) ((tan (PI * (f / fs)) / tan (PI * (fc / fs))) ^ (2 * n))) /\
    cas_response c at_nyquist (RtoC (if Nat.odd n then -1 else 1)).
Proof.
  intros Hn HV HC. set (g := sh_g n gain). assert (GP : 0 < g) by apply sh_g_pos.
  destruct (shelf_low checks cap n (sh_pairs g n) (sh_odd g n) 1 fc fs (sh_design g GP n) (sh_fin g n GP) (sh_odd_real g n GP) (sh_count g n) Hn HV)
    as [c [E [B [F N]]]].
  exists c. split; [|split; [exact B|split]].
  - unfold butter_lowshelf. rewrite rdiv_ok by (destruct HV; lra). cbn [bind].
    replace (butter_shelf_analog checks (lay_new cap) n gain) with (Ok (analog cap (sh_pairs g n) (sh_odd g n) PI 1)); [exact E|].
    destruct HC as [->| ->]; symmetry; [apply butter_shelf_ok; lia|apply butter_shelf_first; lia].
  - intros f F1 F2. destruct (F f F1 F2) as [h [Hh Hm]]. exists h. split; auto. rewrite Hm, sh_product by (auto; lia).
    unfold g. rewrite sh_g_pow by lia. unfold shelf_gain2. ring.
  - rewrite Rmult_1_l in N. unfold sh_odd in N. destruct (Nat.odd n); exact N.
Qed.
Lemma butter_highshelf_lemma checks cap n fs fc gain : (1 <= n <= cap)%nat -> valid_freq fc fs -> checks = false \/ n = 1%nat ->
  exists c, butter_highshelf checks cap n fs fc gain = Ok c /\ built cap n c /\
    (forall f, 0 < f -> 2 * f <= fs -> exists h, cas_response c (at_freq f fs) h /\
       Cnorm2 h = shelf_gain2 (pow10 (gain / 20)) ((tan (PI * (fc / fs)) * (cos (PI * (f / fs)) / sin (PI * (f / fs)))) ^ (2 * n))) /\
    cas_response c at_dc C1.
Proof.
  intros Hn HV HC. set (g := sh_g n gain). assert (GP : 0 < g) by apply sh_g_pos.
  destruct (shelf_high checks cap n (sh_pairs g n) (sh_odd g n) 1 fc fs (sh_design g GP n) (sh_fin g n GP) (sh_odd_real g n GP) (sh_count g n) Hn HV)
    as [c [E [B [F N]]]].
  exists c. split; [|split; [exact B|split; [|exact N]]].
  - unfold butter_highshelf. rewrite rdiv_ok by (destruct HV; lra). cbn [bind].
    replace (butter_shelf_analog checks (lay_new cap) n gain) with (Ok (analog cap (sh_pairs g n) (sh_odd g n) PI 1)); [exact E|].
    destruct HC as [->| ->]; symmetry; [apply butter_shelf_ok; lia|apply butter_shelf_first; lia].
  - intros f F1 F2. destruct (F f F1 F2) as [h [Hh Hm]]. exists h. split; auto. rewrite Hm, sh_product by (auto; lia).
    unfold g. rewrite sh_g_pow by lia. unfold shelf_gain2. rewrite !Rmult_1_l. 
    set (y := tan (PI * (fc / fs)) * (cos (PI * (f / fs)) / sin (PI * (f / fs)))).
    replace ((- y) ^ (2 * n)) with (y ^ (2 * n)); [reflexivity|]. rewrite !pow_mult. f_equal. ring.
Qed.
