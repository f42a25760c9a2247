From Coq Require Import Psatz Lia List.
From Verif Require Import RealBase RealBaseProofs BaseProofs Cplx CplxProofs PolyProofs BiquadModel BiquadSpec BiquadProofs.
From Verif Require Import StabilityProofs CascadeProofs DesignModel DesignSpec DesignProofs DesignProofs2 LayoutModel.
Import ListNotations.
Local Open Scope R_scope.

Lemma is_zero_false z : z <> C0 -> is_zero z = false.
Proof.
  intros H. unfold is_zero. destruct (Req_EM_T (Re z) 0); auto. destruct (Req_EM_T (Im z) 0); auto.
  exfalso; apply H. apply C_eq; auto.
Qed.
Lemma is_zero_C0 : is_zero C0 = true.
Proof. unfold is_zero; simpl. destruct (Req_EM_T 0 0) as [E|E]; [reflexivity|contradict E; reflexivity]. Qed.
Lemma cdiv_ok x y : y <> C0 -> cdiv x y = Ok (Cdiv x y).
Proof. intros H. unfold cdiv. rewrite is_zero_false; auto. Qed.
Lemma cdiv_inv x y z : cdiv x y = Ok z -> y <> C0 /\ z = Cdiv x y.
Proof.
  unfold cdiv. destruct (is_zero y) eqn:E; [discriminate|]. intros H; injection H as <-. split; auto.
  intros ->. rewrite is_zero_C0 in E. discriminate.
Qed.

(** ** Stages *)
Definition pair_biquad (p z : C) : biquad := mkBq (Cnorm2 z) (- (2) * Re z) 1 (Cnorm2 p) (- (2) * Re p) 1 0 0.
Definition single_biquad (p z : R) : biquad := mkBq 0 1 (- z) 0 (- p) 1 0 0.

Lemma pair_coeffs_conj p : pair_coeffs p (Cconj p) = Ok (- (2) * Re p, Cnorm2 p).
Proof.
  unfold pair_coeffs, Cconj; simpl. destruct (Req_EM_T (Im p) 0) as [E|E].
  - destruct (Req_EM_T (- Im p) 0); [|lra]. do 2 f_equal; unfold Cnorm2; rewrite ?E; ring.
  - destruct (Req_EM_T (Re p) (Re p)); [|lra]. destruct (Req_EM_T (- Im p) (- Im p)); [|lra]. reflexivity.
Qed.
Lemma bq_pairs_conj p z : bq_pairs p z (Cconj p) (Cconj z) = Ok (pair_biquad p z).
Proof. unfold bq_pairs. rewrite !pair_coeffs_conj. reflexivity. Qed.
Lemma bq_single p z : bq_pole_zero (RtoC p) (RtoC z) = Ok (single_biquad p z).
Proof.
  unfold bq_pole_zero; simpl. destruct (Req_EM_T 0 0); [|lra]. reflexivity.
Qed.

Lemma pair_den p z y : tf_den (a1 (pair_biquad p z)) (a2 (pair_biquad p z)) y = ((y - p) * (y - Cconj p))%C.
Proof. unfold tf_den, pair_biquad, Cnorm2; apply C_eq; simpl; ring. Qed.
Lemma pair_num p z y : tf_num (b0 (pair_biquad p z)) (b1 (pair_biquad p z)) (b2 (pair_biquad p z)) y = ((y - z) * (y - Cconj z))%C.
Proof. unfold tf_num, pair_biquad, Cnorm2; apply C_eq; simpl; ring. Qed.
Lemma single_den p z y : tf_den (a1 (single_biquad p z)) (a2 (single_biquad p z)) y = (y * (y - RtoC p))%C.
Proof. unfold tf_den, single_biquad; apply C_eq; simpl; ring. Qed.
Lemma single_num p z y : tf_num (b0 (single_biquad p z)) (b1 (single_biquad p z)) (b2 (single_biquad p z)) y
  = (y * (C1 - RtoC z * y))%C.
Proof. unfold tf_num, single_biquad; apply C_eq; simpl; ring. Qed.

Lemma pair_stable p z : Cmod p < 1 -> bq_stability (pair_biquad p z) = true.
Proof.
  intros H. apply stability_lemma. intros y Hy.
  assert (E : ((y - p) * (y - Cconj p))%C = C0) by (rewrite <- (pair_den p z); exact Hy).
  apply Cmul_eq0 in E. destruct E as [E|E].
  - replace y with p; auto. transitivity (y - (y - p))%C; [|rewrite E]; ring.
  - replace y with (Cconj p); [rewrite Cmod_conj; auto|]. transitivity (y - (y - Cconj p))%C; [|rewrite E]; ring.
Qed.
Lemma single_stable p z : Rabs p < 1 -> bq_stability (single_biquad p z) = true.
Proof.
  intros H. apply stab_true. unfold single_biquad; cbn [a1 a2]. rewrite Rabs_R0, Rabs_Ropp. split; lra.
Qed.

(** ** Responses *)
Definition H (q : biquad) (z : C) : C :=
  (tf_num (b0 q) (b1 q) (b2 q) z / tf_den (a1 q) (a2 q) z)%C.

Lemma response_H q z : bq_stability q = true -> Cmod z = 1 -> response q z (H q z).
Proof.
  intros HS HM. pose proof (stable_den q z HS HM) as HD. split; auto. unfold H. field. auto.
Qed.
Lemma stages_response_H qs z : Forall (fun q => bq_stability q = true) qs -> Cmod z = 1 ->
  stages_response z qs (cprod (map (fun q => H q z) qs)).
Proof. induction 1; intros HM; simpl; constructor; auto. apply response_H; auto. Qed.

Lemma scale_stable q s : bq_stability (apply_scale q s) = bq_stability q.
Proof. reflexivity. Qed.
Lemma scale_H q s z : bq_stability q = true -> Cmod z = 1 -> H (apply_scale q s) z = Cmul (RtoC s) (H q z).
Proof.
  intros HS HM. pose proof (stable_den q z HS HM) as HD. unfold H, apply_scale, set_b0, set_b1, set_b2, bq_reset.
  cbn [b0 b1 b2 a1 a2]. 
  replace (tf_num (b0 q * s) (b1 q * s) (b2 q * s) z) with (Cmul (RtoC s) (tf_num (b0 q) (b1 q) (b2 q) z))
    by (unfold tf_num; apply C_eq; simpl; ring).
  field. auto.
Qed.

Definition good (q : biquad) : Prop := bq_stability q = true /\ a0 q = 1 /\ at_rest q.

(** abstract_designer.hpp's make_response computes the product of the stage responses. *)
Lemma response_loop_ok w qs : Forall (fun q => a0 q = 1) qs -> forall ch cb,
  response_loop (Cpolar 1 (- w)) (Cpolar 1 (- (2) * w)) qs ch cb =
  Ok (Cmul ch (cprod (map (fun q => (tf_num (b0 q) (b1 q) (b2 q) (Cexp w) / (Cexp w * Cexp w))%C) qs)),
      Cmul cb (cprod (map (fun q => (tf_den (a1 q) (a2 q) (Cexp w) / (Cexp w * Cexp w))%C) qs))).
Proof.
  assert (Z1 : Cpolar 1 (- w) = Cinv (Cexp w)).
  { unfold Cpolar, Cinv, Cexp, Cnorm2; simpl. pose proof (sin2_cos2 w) as S. unfold Rsqr in S.
    rewrite cos_neg, sin_neg. replace (cos w * cos w + sin w * sin w) with 1 by lra. apply C_eq; simpl; field. }
  assert (Z2 : Cpolar 1 (- (2) * w) = Cinv (Cexp w * Cexp w)).
  { rewrite <- Cexp_add. replace (w + w) with (2 * w) by ring. replace (- (2) * w) with (- (2 * w)) by ring.
    unfold Cpolar, Cinv, Cexp, Cnorm2; simpl. pose proof (sin2_cos2 (2 * w)) as S. unfold Rsqr in S.
    rewrite cos_neg, sin_neg. replace (cos (2 * w) * cos (2 * w) + sin (2 * w) * sin (2 * w)) with 1 by lra. apply C_eq; simpl; field. }
  pose proof (Cexp_neq0 w) as NZ.
  induction 1 as [|q qs Hq HF IH]; intros ch cb.
  - simpl. f_equal. f_equal; ring.
  - cbn [response_loop map cprod]. rewrite Hq. rewrite !rdiv_ok by lra. cbn [bind]. rewrite IH. f_equal.
    assert (A : forall l k r, addmul l k r = (l + RtoC k * r)%C) by (intros; unfold addmul; apply C_eq; simpl; ring).
    rewrite !A, Z1, Z2. replace (b0 q / 1) with (b0 q) by field. replace (b1 q / 1) with (b1 q) by field.
    replace (b2 q / 1) with (b2 q) by field. replace (a1 q / 1) with (a1 q) by field. replace (a2 q / 1) with (a2 q) by field.
    f_equal; unfold tf_num, tf_den.
    + field. auto.
    + field. auto.
Qed.

Lemma cprod_div {A} (f g : A -> C) (k : C) l : k <> C0 -> (forall q, In q l -> g q <> C0) ->
  Cdiv (cprod (map (fun q => Cdiv (f q) k) l)) (cprod (map (fun q => Cdiv (g q) k) l)) = cprod (map (fun q => Cdiv (f q) (g q)) l)
  /\ cprod (map (fun q => Cdiv (g q) k) l) <> C0.
Proof.
  intros Hk. induction l as [|a l IH]; intros HG.
  - simpl. split; [field|]; apply C1_neq0.
  - assert (Ga : g a <> C0) by (apply HG; left; auto).
    destruct IH as [IH NZ]; [intros; apply HG; right; auto|]. cbn [map cprod].
    assert (Gk : Cdiv (g a) k <> C0).
    { intros E. apply Ga. transitivity (Cmul (Cdiv (g a) k) k); [field; auto|]. rewrite E. ring. }
    split; [|apply Cmul_neq0; auto].
    rewrite <- IH. field. auto.
Qed.

Lemma Forall_impl' {A} (P Q : A -> Prop) l : (forall a, P a -> Q a) -> Forall P l -> Forall Q l.
Proof. intros HPQ HF. eapply Forall_impl; eauto. Qed.

Lemma make_response_ok c w qs rest : num_stage c = length qs -> stages c = qs ++ rest -> Forall good qs ->
  make_response c (w / (2 * PI)) = Ok (cprod (map (fun q => H q (Cexp w)) qs)).
Proof.
  intros HN HS HG. unfold make_response. rewrite HN, HS, firstn_app, Nat.sub_diag, firstn_all. simpl (firstn 0 rest).
  rewrite app_nil_r. replace (2 * PI * (w / (2 * PI))) with w by (field; apply PI_neq0).
  rewrite response_loop_ok by (eapply Forall_impl'; [|exact HG]; intros a [_ [Ha _]]; auto). cbn [bind fst snd].
  destruct (cprod_div (fun q => tf_num (b0 q) (b1 q) (b2 q) (Cexp w)) (fun q => tf_den (a1 q) (a2 q) (Cexp w))
    (Cmul (Cexp w) (Cexp w)) qs) as [E NZ].
  - apply Cmul_neq0; apply Cexp_neq0.
  - intros q Hq. rewrite Forall_forall in HG. apply stable_den; [apply HG, Hq|apply Cmod_exp].
  - rewrite cdiv_ok.
    + f_equal. unfold H. rewrite <- E. field. exact NZ.
    + intros Z. apply NZ. rewrite <- Z. ring.
Qed.

(** ** Layouts as lists of pairs *)
Definition lay_of (cap : nat) (prs : list pz) (np : nat) (w g : R) : layout :=
  mkLay np (prs ++ repeat pz_default (cap - length prs)) w g.

Lemma repeat_sub {A} (d : A) cap n : (n < cap)%nat -> repeat d (cap - n) = d :: repeat d (cap - (n + 1)).
Proof. intros Hn. replace (cap - n)%nat with (S (cap - (n + 1))) by lia. reflexivity. Qed.

Lemma insert_conj_ok cap prs w g p z : (length prs < cap)%nat ->
  lay_insert_conjugate (lay_of cap prs (2 * length prs) w g) p z
  = Ok (lay_of cap (prs ++ [mkPz p z (Cconj p) (econj z)]) (2 * length (prs ++ [mkPz p z (Cconj p) (econj z)])) w g).
Proof.
  intros Hl. unfold lay_insert_conjugate, lay_of. cbn [num_poles pairs lay_w lay_gain].
  rewrite Nat.even_mul. cbn [Nat.even orb]. replace (2 * length prs / 2)%nat with (length prs) by (rewrite Nat.mul_comm, Nat.div_mul; lia).
  rewrite repeat_sub by auto. rewrite store_app_len. cbn [bind]. f_equal. rewrite app_length. cbn [length].
  f_equal; [lia|]. rewrite <- app_assoc. reflexivity.
Qed.

Lemma insert_single_ok checks cap prs w g p z : (length prs < cap)%nat ->
  checks = false \/ (Im p = 0 /\ imag_is_zero z = true) ->
  lay_insert checks (lay_of cap prs (2 * length prs) w g) p z
  = Ok (lay_of cap (prs ++ [mkPz p z C0 (Fin C0)]) (2 * length prs + 1) w g).
Proof.
  intros Hl HC. unfold lay_insert, lay_of. cbn [num_poles pairs lay_w lay_gain].
  rewrite Nat.even_mul. cbn [Nat.even orb]. replace (2 * length prs / 2)%nat with (length prs) by (rewrite Nat.mul_comm, Nat.div_mul; lia).
  assert (X : (checks && negb (imag_is_zero (Fin p) && imag_is_zero z))%bool = false).
  { destruct HC as [->|[Hp Hz]]; auto. rewrite Hz. simpl. rewrite Hp. destruct (Req_EM_T 0 0); [|lra]. apply Bool.andb_false_r. }
  rewrite X. rewrite repeat_sub by auto. rewrite store_app_len. cbn [bind]. f_equal. rewrite app_length. cbn [length].
  f_equal. rewrite <- app_assoc. reflexivity.
Qed.

Lemma insert_single_ub cap prs w g p z : imag_is_zero z = false ->
  lay_insert true (lay_of cap prs (2 * length prs) w g) p z = UB.
Proof.
  intros HZ. unfold lay_insert, lay_of. cbn [num_poles]. rewrite Nat.even_mul. cbn [Nat.even orb]. rewrite HZ.
  rewrite Bool.andb_false_r. reflexivity.
Qed.

Lemma lay_get_ok cap l1 x l2 np w g : (length l1 < np / 2 + 1)%nat ->
  lay_get (lay_of cap (l1 ++ x :: l2) np w g) (length l1) = Ok x.
Proof.
  intros Hn. unfold lay_get, lay_size, lay_of. cbn [num_poles pairs].
  destruct (Nat.ltb_spec (length l1) (np / 2 + 1)); [|lia].
  unfold load. rewrite <- app_assoc, nth_error_app2 by lia. rewrite Nat.sub_diag. reflexivity.
Qed.

(** An analogue design: conjugate pairs and possibly one real pole, each with its zero. *)
Definition cpair (cz : C * ecomplex) : pz := mkPz (fst cz) (snd cz) (Cconj (fst cz)) (econj (snd cz)).
Definition spair (cz : R * ecomplex) : pz := mkPz (RtoC (fst cz)) (snd cz) C0 (Fin C0).
Definition ocount {A} (o : option A) : nat := match o with Some _ => 1 | None => 0 end.
Definition olist {A B} (f : A -> B) (o : option A) : list B := match o with Some a => [f a] | None => [] end.
Definition analog (cap : nat) (prs : list (C * ecomplex)) (od : option (R * ecomplex)) (w g : R) : layout :=
  lay_of cap (map cpair prs ++ olist spair od) (2 * length prs + ocount od) w g.

(** Its digital image under a map T of the extended plane that commutes with conjugation. *)
Definition dpair (T : ecomplex -> C) (cz : C * ecomplex) : pz :=
  mkPz (T (Fin (fst cz))) (Fin (T (econj (snd cz)))) (Cconj (T (Fin (fst cz)))) (Fin (Cconj (T (econj (snd cz))))).
Definition dsingle (T : ecomplex -> C) (cz : R * ecomplex) : pz :=
  mkPz (T (Fin (RtoC (fst cz)))) (Fin (T (snd cz))) C0 (Fin C0).

Lemma div2_odd n : ((2 * n + 1) / 2 = n)%nat.
Proof. rewrite Nat.add_comm, Nat.mul_comm, Nat.div_add by lia. reflexivity. Qed.
Lemma div2_even n : ((2 * n) / 2 = n)%nat.
Proof. rewrite Nat.mul_comm. apply Nat.div_mul. lia. Qed.

Lemma transform_pairs_ok (tr : ecomplex -> res C) T cap' cap od np w g : forall todo done dprs w' g',
  (forall cz, In cz todo -> tr (Fin (fst cz)) = Ok (T (Fin (fst cz))) /\ tr (econj (snd cz)) = Ok (T (econj (snd cz)))) ->
  (length done + length todo < np / 2 + 1)%nat -> (length dprs + length todo <= cap')%nat ->
  transform_pairs tr (lay_of cap (map cpair (done ++ todo) ++ od) np w g) (length done) (length todo)
     (lay_of cap' dprs (2 * length dprs) w' g')
  = Ok (lay_of cap' (dprs ++ map (dpair T) todo) (2 * (length dprs + length todo)) w' g').
Proof.
  induction todo as [|cz todo IH]; intros done dprs w' g' HT HL HC.
  - simpl. rewrite app_nil_r. do 2 f_equal. lia.
  - cbn [length transform_pairs].
    replace (map cpair (done ++ cz :: todo) ++ od) with (map cpair done ++ cpair cz :: (map cpair todo ++ od))
      by (rewrite map_app, <- app_assoc; reflexivity).
    rewrite <- (map_length cpair done). rewrite lay_get_ok by (rewrite map_length; cbn [length] in HL; lia). cbn [bind].
    destruct (HT cz (or_introl eq_refl)) as [E1 E2]. change (pole1 (cpair cz)) with (fst cz). change (zero2 (cpair cz)) with (econj (snd cz)).
    rewrite E1. cbn [bind]. rewrite E2. cbn [bind].
    cbn [length] in HC, HL. rewrite insert_conj_ok by lia. cbn [bind].
    replace (map cpair done ++ cpair cz :: (map cpair todo ++ od)) with (map cpair ((done ++ [cz]) ++ todo) ++ od)
      by (rewrite <- app_assoc, map_app, <- app_assoc; reflexivity).
    rewrite map_length.
    replace (length done + 1)%nat with (length (done ++ [cz])) by (rewrite app_length; reflexivity).
    rewrite IH.
    + f_equal. rewrite !app_length. cbn [length]. rewrite <- app_assoc. f_equal. lia.
    + intros; apply HT; right; auto.
    + rewrite app_length. cbn [length]. lia.
    + rewrite app_length. cbn [length]. lia.
Qed.

Lemma transform_layout_ok checks (tr : ecomplex -> res C) T w' cap prs od w g :
  (forall cz, In cz prs -> tr (Fin (fst cz)) = Ok (T (Fin (fst cz))) /\ tr (econj (snd cz)) = Ok (T (econj (snd cz)))) ->
  (forall cz, od = Some cz -> tr (Fin (RtoC (fst cz))) = Ok (T (Fin (RtoC (fst cz)))) /\ tr (snd cz) = Ok (T (snd cz)) /\
      Im (T (Fin (RtoC (fst cz)))) = 0 /\ Im (T (snd cz)) = 0) ->
  (length prs + ocount od <= cap)%nat ->
  transform_layout checks tr w' (analog cap prs od w g) (lay_new cap) =
  Ok (lay_of cap (map (dpair T) prs ++ olist (dsingle T) od) (2 * length prs + ocount od) w' g).
Proof.
  intros HP HO HC. unfold transform_layout. cbn [num_poles lay_gain analog lay_of].
  assert (HD : ((2 * length prs + ocount od) / 2 = length prs)%nat).
  { destruct od; simpl (ocount _); [apply div2_odd|rewrite Nat.add_0_r; apply div2_even]. }
  rewrite HD.
  change (lay_set_gain (lay_set_w (lay_reset (lay_new cap)) w') g) with (mkLay 0 (repeat pz_default cap) w' g).
  pose proof (transform_pairs_ok tr T cap cap (olist spair od) (2 * length prs + ocount od) w g prs [] [] w' g HP) as E.
  cbn [length app] in E. unfold lay_of at 2 in E. cbn [app] in E. rewrite Nat.sub_0_r in E. change (2 * 0)%nat with 0%nat in E.
  unfold analog. cbn [num_poles lay_gain lay_of] in *. unfold lay_of at 1. fold (lay_of cap (map cpair prs ++ olist spair od) (2 * length prs + ocount od) w g). rewrite E by (rewrite ?HD; lia). cbn [bind].
  destruct od as [cz|]; cbn [ocount olist].
  - replace (Nat.odd (2 * length prs + 1)) with true by (rewrite Nat.odd_add, Nat.odd_mul; auto).
    assert (EG : lay_get (lay_of cap (map cpair prs ++ [spair cz]) (2 * length prs + 1) w g) (length prs) = Ok (spair cz)).
    { replace (length prs) with (length (map cpair prs)) at 2 by apply map_length. apply lay_get_ok. rewrite map_length, div2_odd. lia. }
    rewrite EG. cbn [bind].
    destruct (HO cz eq_refl) as [E1 [E2 [I1 I2]]]. change (pole1 (spair cz)) with (RtoC (fst cz)). change (zero1 (spair cz)) with (snd cz).
    rewrite E1. cbn [bind]. rewrite E2. cbn [bind].
    replace (2 * (0 + length prs))%nat with (2 * length (map (dpair T) prs))%nat by (rewrite map_length; lia).
    rewrite insert_single_ok; [rewrite map_length; reflexivity|rewrite map_length; simpl in HC; lia|].
    right. split; auto. simpl. rewrite I2. destruct (Req_EM_T 0 0); auto; lra.
  - rewrite Nat.add_0_r. replace (Nat.odd (2 * length prs)) with false by (rewrite Nat.odd_mul; auto).
    rewrite app_nil_r. reflexivity.
Qed.

(** Building the stages. *)
Lemma push_biquads_ok (mk : pz -> biquad) cap np w g : forall todo done c,
  (forall p, In p todo -> make_biquad p = Ok (mk p)) ->
  (length done + length todo <= np / 2 + 1)%nat ->
  push_biquads (lay_of cap (done ++ todo) np w g) (length done) (length todo) c = cas_pushes c (map mk todo).
Proof.
  induction todo as [|p todo IH]; intros done c HM HL; [reflexivity|].
  cbn [length push_biquads map cas_pushes]. cbn [length] in HL. rewrite lay_get_ok by lia. cbn [bind].
  rewrite HM by (left; auto). cbn [bind]. destruct (cas_push_back c (mk p)) as [c'| |]; cbn [bind]; auto.
  replace (done ++ p :: todo) with ((done ++ [p]) ++ todo) by (rewrite <- app_assoc; reflexivity).
  replace (length done + 1)%nat with (length (done ++ [p])) by (rewrite app_length; reflexivity).
  apply IH.
  - intros; apply HM; right; auto.
  - rewrite app_length; cbn [length]; lia.
Qed.

Lemma make_cascade_ok (mk : pz -> biquad) cap ds np w g :
  ds <> [] -> length ds = ((np + 1) / 2)%nat -> (np <= cap)%nat ->
  (forall p, In p ds -> make_biquad p = Ok (mk p) /\ good (mk p) /\ H (mk p) (Cexp w) <> C0) ->
  exists c, make_cascade cap (lay_of cap ds np w g) = Ok c /\ num_stage c = length ds /\ length (stages c) = ((cap + 1) / 2)%nat /\
    Forall (fun q => bq_stability q = true /\ at_rest q) (used c) /\
    forall z, Cmod z = 1 ->
      cas_response c z (Cmul (RtoC (g / Cmod (cprod (map (fun p => H (mk p) (Cexp w)) ds)))) (cprod (map (fun p => H (mk p) z) ds))).
Proof.
  intros Hne HL Hcap HM. unfold make_cascade. cbn [num_poles lay_w lay_gain]. change (num_poles (lay_of cap ds np w g)) with np.
  rewrite <- HL.
  assert (HB : (length ds <= np / 2 + 1)%nat).
  { rewrite HL. replace (np / 2 + 1)%nat with ((np + 1 * 2) / 2)%nat by (rewrite Nat.div_add; lia). apply Nat.div_le_mono; lia. }
  pose proof (push_biquads_ok mk cap np w g ds [] (cas_new ((cap + 1) / 2)) (fun p Hp => proj1 (HM p Hp)) HB) as E.
  cbn [length app] in E. rewrite E. rewrite pushes_new.
  2:{ rewrite map_length, HL. apply Nat.div_le_mono; lia. }
  cbn [bind].
  assert (HG : Forall good (map mk ds)).
  { apply Forall_forall. intros q Hq. apply in_map_iff in Hq. destruct Hq as [p [<- Hp]]. apply HM, Hp. }
  assert (HNZ : cprod (map (fun p => H (mk p) (Cexp w)) ds) <> C0).
  { clear - HM. induction ds as [|d ds IH]; [apply C1_neq0|]. simpl. apply Cmul_neq0; [apply HM; left; auto|].
    apply IH. intros; apply HM; right; auto. }
  change (lay_w (lay_of cap ds np w g)) with w. change (lay_gain (lay_of cap ds np w g)) with g.
  erewrite make_response_ok; [|cbn [num_stage]; reflexivity|cbn [stages]; reflexivity|exact HG]. cbn [bind].
  rewrite map_map. set (P := cprod (map (fun p => H (mk p) (Cexp w)) ds)) in *.
  rewrite rdiv_ok by (apply Rgt_not_eq, Cmod_pos; auto). cbn [bind stages num_stage].
  destruct ds as [|d ds]; [contradiction|]. cbn [map app load]. unfold load. cbn [nth_error bind store].
  eexists. split; [reflexivity|]. cbn [num_stage stages].
  cbn [map] in HG. inversion HG as [|? ? G0 GS]; subst.
  assert (EL : length (map mk ds) = length ds) by apply map_length.
  remember (map mk ds) as ms eqn:Ems. cbn [length] in HL |- *. rewrite EL.
  assert (EU : used (mkCas (S (length ds)) (apply_scale (mk d) (g / Cmod P) :: ms ++ repeat bq_default ((cap + 1) / 2 - S (length ds))))
     = apply_scale (mk d) (g / Cmod P) :: ms).
  { unfold used. cbn [num_stage stages firstn]. f_equal. rewrite firstn_app, EL, Nat.sub_diag. simpl (firstn 0 _).
    rewrite app_nil_r. rewrite <- EL. apply firstn_all. }
  split; [reflexivity|]. split.
  { rewrite app_length, repeat_length, EL.
    assert (((np + 1) / 2 <= (cap + 1) / 2)%nat) by (apply Nat.div_le_mono; lia). lia. }
  split.
  - rewrite EU. constructor.
    + split; [exact (proj1 G0)|split; reflexivity].
    + eapply Forall_impl'; [|exact GS]. intros a [A1 [_ A3]]. auto.
  - intros z Hz. unfold cas_response. rewrite EU. cbn [map cprod].
    replace (RtoC (g / Cmod P) * (H (mk d) z * cprod (map (fun p : pz => H (mk p) z) ds)))%C
      with (H (apply_scale (mk d) (g / Cmod P)) z * cprod (map (fun q => H q z) ms))%C.
    + constructor.
      * apply response_H; auto. exact (proj1 G0).
      * apply stages_response_H; auto. eapply Forall_impl'; [|exact GS]. intros a [A1 _]. auto.
    + rewrite scale_H by (auto; exact (proj1 G0)). rewrite Ems, map_map. ring.
Qed.
