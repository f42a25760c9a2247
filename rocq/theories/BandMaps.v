(** The two transformers as degree-two substitutions, and the band edges. *)
From Coq Require Import Psatz Lia List.
From Verif Require Import RealBase RealBaseProofs BaseProofs Cplx CplxProofs PolyProofs BiquadModel BiquadSpec BiquadProofs.
From Verif Require Import StabilityProofs CascadeProofs DesignModel DesignSpec DesignProofs DesignProofs2 LayoutModel LayoutProofs.
From Verif Require Import BilinearProofs ButterProofs BandModel BandSpec BandProofs.
Import ListNotations.
Local Open Scope R_scope.

(** ** The complex square root *)
Lemma Cmod_ge_Re z : - Cmod z <= Re z <= Cmod z.
Proof. pose proof (Rabs_Re_le z) as A. unfold Rabs in A. destruct (Rcase_abs (Re z)); lra. Qed.
Lemma Csqrt_sq z : (Csqrt z * Csqrt z)%C = z.
Proof.
  pose proof (Cmod_ge_Re z) as [L1 L2]. pose proof (Cmod_sqr z) as S. unfold Cnorm2 in S.
  set (m := Cmod z) in *. unfold Csqrt. fold m. apply C_eq; cbn [Re Im Cmul fst snd]; change (fst z) with (Re z); change (snd z) with (Im z).
  - set (e := if Rle_dec 0 (Im z) then 1 else -1). assert (E : e * e = 1) by (unfold e; destruct (Rle_dec _ _); lra).
    pose proof (sqrt_sqrt ((m + Re z) / 2) ltac:(lra)) as A. pose proof (sqrt_sqrt ((m - Re z) / 2) ltac:(lra)) as B.
    set (x := sqrt ((m + Re z) / 2)) in *. set (y := sqrt ((m - Re z) / 2)) in *. clearbody x y e. change (fst z) with (Re z).
    transitivity (x * x - (e * e) * (y * y)); [ring|]. rewrite E. lra.
  - assert (P : sqrt ((m + Re z) / 2) * sqrt ((m - Re z) / 2) = Rabs (Im z) / 2).
    { rewrite <- sqrt_mult by lra. replace ((m + Re z) / 2 * ((m - Re z) / 2)) with ((Im z / 2) * (Im z / 2)) by nra.
      fold (Rsqr (Im z / 2)). rewrite sqrt_Rsqr_abs. unfold Rdiv. rewrite Rabs_mult. rewrite (Rabs_pos_eq (/ 2)) by lra. reflexivity. }
    set (x := sqrt ((m + Re z) / 2)) in *. set (y := sqrt ((m - Re z) / 2)) in *. change (snd z) with (Im z). change (snd z) with (Im z) in *.
    destruct (Rle_dec 0 (Im z)) as [G|G].
    + rewrite Rabs_pos_eq in P by auto. lra.
    + rewrite Rabs_left in P by lra. lra.
Qed.
(** The root of a real number is real or purely imaginary. *)
Lemma Csqrt_real z : Im z = 0 -> Im (Csqrt z) = 0 \/ Re (Csqrt z) = 0.
Proof.
  intros HI. unfold Csqrt. cbn [Re Im fst snd]. change (snd z) with (Im z). change (fst z) with (Re z).
  assert (E : Cmod z = Rabs (Re z)).
  { unfold Cmod, Cnorm2. rewrite HI. replace (Re z * Re z + 0 * 0) with (Rsqr (Re z)) by (unfold Rsqr; ring). apply sqrt_Rsqr_abs. }
  rewrite E. destruct (Rle_dec 0 (Re z)) as [G|G].
  - left. rewrite (Rabs_pos_eq _ G). replace ((Re z - Re z) / 2) with 0 by field. rewrite sqrt_0. ring.
  - right. rewrite Rabs_left by lra. replace ((- Re z + Re z) / 2) with 0 by field. apply sqrt_0.
Qed.

Lemma addmul_eq l k r : addmul l k r = (l + RtoC k * r)%C. Proof. unfold addmul; apply C_eq; simpl; ring. Qed.

(** ** Quadratics *)
Definition qM (z : C) : C := (z * z - C1)%C.
Definition qQ (a : R) (z : C) : C := (z * z - RtoC (2 * a) * z + C1)%C.
Definition bpN (a b : R) (z : C) : C := (RtoC b * qQ a z)%C.
Definition bsN (b : R) (z : C) : C := (RtoC b * qM z)%C.

Lemma cross a z : Re (qQ a z * Cconj (qM z))%C = (Cnorm2 z - 1) * ((1 - a) / 2 * Cnorm2 (z + C1)%C + (1 + a) / 2 * Cnorm2 (z - C1)%C).
Proof. unfold qQ, qM, Cnorm2; simpl; field. Qed.

Lemma both_zero a z : -1 < a < 1 -> qM z = C0 -> qQ a z <> C0.
Proof.
  intros Ha EM EQ. unfold qM in EM. assert (F : ((z - C1) * (z + C1))%C = C0) by (rewrite <- EM; ring).
  apply Cmul_eq0 in F. destruct F as [F|F].
  - assert (z = C1) by (transitivity ((z - C1) + C1)%C; [ring|rewrite F; ring]). subst z. apply (f_equal Re) in EQ. unfold qQ in EQ. simpl in EQ. lra.
  - assert (z = (- C1)%C) by (transitivity ((z + C1) - C1)%C; [ring|rewrite F; ring]). subst z. apply (f_equal Re) in EQ. unfold qQ in EQ. simpl in EQ. lra.
Qed.

Lemma cross_nonneg a z : -1 < a < 1 -> 1 <= Cnorm2 z -> 0 <= Re (qQ a z * Cconj (qM z))%C.
Proof.
  intros Ha Hz. rewrite cross. pose proof (Cnorm2_nonneg (z + C1)%C). pose proof (Cnorm2_nonneg (z - C1)%C).
  apply Rmult_le_pos; [lra|]. nra.
Qed.

Lemma stable_gen (Q P : C) (b : R) c : 0 < b -> 0 <= Re (Q * Cconj P)%C -> (P = C0 -> Q <> C0) -> Re c < 0 -> (RtoC b * Q - c * P)%C <> C0.
Proof.
  intros Hb HQ HN Hc E.
  assert (X : (RtoC b * Q)%C = (c * P)%C) by (transitivity ((RtoC b * Q - c * P) + c * P)%C; [ring|rewrite E; ring]).
  assert (Y : (RtoC b * (Q * Cconj P))%C = (c * RtoC (Cnorm2 P))%C).
  { transitivity ((RtoC b * Q) * Cconj P)%C; [ring|]. rewrite X. unfold Cnorm2. apply C_eq; simpl; ring. }
  apply (f_equal Re) in Y. set (w := (Q * Cconj P)%C) in *. simpl in Y. assert (Y' : b * Re w = Re c * Cnorm2 P) by (simpl; lra).
  pose proof (Cnorm2_nonneg P). destruct (Req_dec (Cnorm2 P) 0) as [Z|Z].
  - apply Cnorm2_0 in Z. apply (HN Z). rewrite Z in X. apply Cnorm2_0.
    assert (W : (RtoC b * Q)%C = C0) by (rewrite X; ring). apply Cmul_eq0 in W. destruct W as [W|W].
    + apply (f_equal Re) in W. simpl in W. lra.
    + rewrite W. unfold Cnorm2; simpl; ring.
  - assert (0 < Cnorm2 P) by lra. assert (0 <= b * Re w) by (apply Rmult_le_pos; lra). nra.
Qed.

(** ** Roots *)
Lemma quad_roots (u1 u2 d s V v z : C) : (v * v)%C = V -> d <> C0 -> u1 = (s - v)%C -> u2 = (s + v)%C ->
  ((d * d) * ((z - u1 / d) * (z - u2 / d)))%C = ((d * z - s) * (d * z - s) - V)%C.
Proof. intros HV Hd -> ->. rewrite <- HV. field. auto. Qed.
Lemma quad_roots' (u1 u2 d s V v z : C) : (v * v)%C = V -> d <> C0 -> u1 = (s + v)%C -> u2 = (s - v)%C ->
  ((d * d) * ((z - u1 / d) * (z - u2 / d)))%C = ((d * z - s) * (d * z - s) - V)%C.
Proof. intros HV Hd -> ->. rewrite <- HV. field. auto. Qed.

Definition C2 : C := (C1 + C1)%C.
Lemma RtoC_sub a b : RtoC (a - b) = (RtoC a - RtoC b)%C. Proof. apply C_eq; simpl; ring. Qed.
Lemma RtoC_opp a : RtoC (- a) = (- RtoC a)%C. Proof. apply C_eq; simpl; ring. Qed.
Lemma RtoC_2 : RtoC 2 = C2. Proof. apply C_eq; simpl; ring. Qed.
Lemma RtoC_4 : RtoC 4 = (C2 * C2)%C. Proof. apply C_eq; simpl; ring. Qed.
Lemma RtoC_8 : RtoC 8 = (C2 * C2 * C2)%C. Proof. apply C_eq; simpl; ring. Qed.
Lemma RtoC_1 : RtoC 1 = C1. Proof. reflexivity. Qed.
Ltac rtoc := repeat (rewrite RtoC_add || rewrite RtoC_sub || rewrite RtoC_mul || rewrite RtoC_opp); rewrite ?RtoC_2, ?RtoC_4, ?RtoC_8, ?RtoC_1.

Lemma C2_nz : C2 <> C0. Proof. intros E. apply (f_equal Re) in E. simpl in E. lra. Qed.
Lemma om_nz i : Re i <= 0 -> (C1 - i)%C <> C0.
Proof. intros Hi E. apply (f_equal Re) in E. simpl in E. lra. Qed.
Lemma bm_nz b i : 0 < b -> Re i <= 0 -> (RtoC b - i)%C <> C0.
Proof. intros Hb Hi E. apply (f_equal Re) in E. simpl in E. lra. Qed.

Lemma real_div x y : Im x = 0 -> Im y = 0 -> Im (x / y)%C = 0.
Proof. intros A B. unfold Cdiv, Cinv. simpl. change (snd x) with (Im x). change (snd y) with (Im y). rewrite A, B. unfold Rdiv. ring. Qed.
Lemma conj_div x y d : x = Cconj y -> Im d = 0 -> (x / d)%C = Cconj (y / d)%C.
Proof.
  intros -> D. unfold Cdiv. rewrite Cconj_mul. f_equal. rewrite Cconj_inv. f_equal. apply C_eq; simpl; auto. change (snd d) with (Im d). rewrite D. ring.
Qed.
Lemma rp_sum s v d : Im s = 0 -> Im d = 0 -> Im v = 0 \/ Re v = 0 -> realpair ((s - v) / d)%C ((s + v) / d)%C.
Proof.
  intros S D [V|V].
  - left. split; apply real_div; auto; simpl; change (snd s) with (Im s); change (snd v) with (Im v); lra.
  - right. apply conj_div; auto. apply C_eq; simpl; change (snd s) with (Im s); change (snd v) with (Im v); change (fst v) with (Re v); change (fst s) with (Re s); lra.
Qed.
Lemma rp_sum' s v d : Im s = 0 -> Im d = 0 -> Im v = 0 \/ Re v = 0 -> realpair ((s + v) / d)%C ((s - v) / d)%C.
Proof.
  intros S D [V|V].
  - left. split; apply real_div; auto; simpl; change (snd s) with (Im s); change (snd v) with (Im v); lra.
  - right. apply conj_div; auto. apply C_eq; simpl; change (snd s) with (Im s); change (snd v) with (Im v); change (fst v) with (Re v); change (fst s) with (Re s); lra.
Qed.

Section Roots.
Variables (a b wc wc2 : R).
Hypothesis (Ha : -1 < a < 1) (Hb : 0 < b).
Let q := mkBand wc wc2 a b.

Definition bpV (c : C) : C := ((RtoC (4 * (b * b * (a * a - 1) + 1)) * c + RtoC (8 * (b * b * (a * a - 1) - 1))) * c + RtoC (4 * (b * b * (a * a - 1) + 1)))%C.
Definition bpS (c : C) : C := (RtoC (2 * (a * b)) * c + RtoC (2 * (a * b)))%C.
Definition bpD (c : C) : C := (RtoC (2 * (b - 1)) * c + RtoC (2 * (1 + b)))%C.

Lemma bpD_eq i : Re i <= 0 -> bpD ((C1 + i) / (C1 - i))%C = (C2 * C2 * (RtoC b - i) / (C1 - i))%C.
Proof. intros Hi. pose proof (om_nz i Hi). unfold bpD. rtoc. unfold C2. field. auto. Qed.
Lemma bpS_eq i : Re i <= 0 -> bpS ((C1 + i) / (C1 - i))%C = (C2 * C2 * (RtoC a * RtoC b) / (C1 - i))%C.
Proof. intros Hi. pose proof (om_nz i Hi). unfold bpS. rtoc. unfold C2. field. auto. Qed.
Lemma bpV_eq i : Re i <= 0 -> bpV ((C1 + i) / (C1 - i))%C =
  (C2 * C2 * C2 * C2 * (RtoC b * RtoC b * (RtoC a * RtoC a - C1) + i * i) / ((C1 - i) * (C1 - i)))%C.
Proof. intros Hi. pose proof (om_nz i Hi). unfold bpV. rtoc. unfold C2. field. auto. Qed.

Lemma bpD_nz i : Re i <= 0 -> bpD ((C1 + i) / (C1 - i))%C <> C0.
Proof.
  intros Hi E. rewrite bpD_eq in E by auto. pose proof (om_nz i Hi) as O.
  assert (F : (C2 * C2 * (RtoC b - i))%C = C0) by (transitivity ((C2 * C2 * (RtoC b - i) / (C1 - i)) * (C1 - i))%C; [field; auto|rewrite E; ring]).
  revert F. apply Cmul_neq0; [apply Cmul_neq0; apply C2_nz|apply bm_nz; auto].
Qed.

Lemma bp_transform_fin i : Re i <= 0 -> let c := ((C1 + i) / (C1 - i))%C in
  bp_transform q (Fin i) = Ok (((bpS c - Csqrt (bpV c)) / bpD c)%C, ((bpS c + Csqrt (bpV c)) / bpD c)%C).
Proof.
  intros Hi c. unfold bp_transform. rewrite cdiv_ok by (apply om_nz; auto). cbn [bind]. fold c.
  unfold q. cbn [bd_a bd_b]. rewrite !addmul_eq.
  replace (C0 + RtoC (4 * (b * b * (a * a - 1) + 1)) * c)%C with (RtoC (4 * (b * b * (a * a - 1) + 1)) * c)%C by ring.
  replace (C0 + RtoC (2 * (b - 1)) * c + RtoC (2 * (1 + b)))%C with (bpD c) by (unfold bpD; ring).
  fold (bpV c). rewrite !cdiv_ok by (apply bpD_nz; auto). cbn [bind]. do 2 f_equal; f_equal; unfold bpS; ring.
Qed.

Lemma bp_map : band_map (bp_transform q) b (bpN a b) qM.
Proof.
  constructor; auto.
  - intros z. unfold bpN, qQ. apply C_eq; simpl; ring.
  - intros z. unfold qM. apply C_eq; simpl; ring.
  - exists b, (-1). split; [|split; [|lra]]; unfold bpN, qQ, qM; apply C_eq; simpl; ring.
  - intros [i|] Hi.
    + simpl in Hi. eexists. split; [apply bp_transform_fin; auto|]. cbn [fst snd]. set (c := ((C1 + i) / (C1 - i))%C). split.
      * intros z. cbn [lead poly].
        assert (DN : bpD c <> C0) by (apply bpD_nz; auto).
        pose proof (quad_roots _ _ (bpD c) (bpS c) (bpV c) (Csqrt (bpV c)) z (Csqrt_sq _) DN eq_refl eq_refl) as E.
        set (X := ((z - (bpS c - Csqrt (bpV c)) / bpD c) * (z - (bpS c + Csqrt (bpV c)) / bpD c))%C) in *.
        assert (EX : X = (((bpD c * z - bpS c) * (bpD c * z - bpS c) - bpV c) / (bpD c * bpD c))%C).
        { rewrite <- E. field. auto. }
        rewrite EX. unfold c. pose proof (om_nz i Hi) as O. pose proof (bm_nz b i Hb Hi) as B. pose proof C2_nz as T.
        rewrite bpD_eq, bpS_eq, bpV_eq by auto. unfold bpN, qQ, qM. rtoc. unfold C2 in *. field; repeat split; auto; try (intros F; apply (f_equal Re) in F; cbn [Re fst C0] in F; lra).
      * intros R. simpl in R. assert (IC : Im c = 0) by (apply real_div; simpl; change (snd i) with (Im i); lra). clearbody c.
        assert (IV : Im (bpV c) = 0) by (unfold bpV; simpl; change (snd c) with (Im c); rewrite IC; ring).
        apply rp_sum; [| |apply Csqrt_real; auto]; [unfold bpS|unfold bpD]; simpl; change (snd c) with (Im c); rewrite IC; ring.
    + eexists. split; [reflexivity|]. cbn [fst snd]. split.
      * intros z. cbn [lead poly]. unfold qM. apply C_eq; simpl; ring.
      * intros _. left. simpl. auto.
  - intros z c Hz Hc. unfold bpN. apply stable_gen; auto; [apply cross_nonneg; auto|intros; apply both_zero; auto].
Qed.

Definition bsV (c : C) : C := ((RtoC (4 * (b * b + a * a - 1)) * c + RtoC (8 * (b * b - a * a + 1))) * c + RtoC (4 * (a * a + b * b - 1)))%C.
Definition bsS (c : C) : C := (RtoC a - RtoC a * c)%C.
Definition bsD (c : C) : C := (RtoC (b + 1) + RtoC (b - 1) * c)%C.

Lemma bsD_eq i : Re i <= 0 -> bsD ((C1 + i) / (C1 - i))%C = (C2 * (RtoC b - i) / (C1 - i))%C.
Proof. intros Hi. pose proof (om_nz i Hi). unfold bsD. rtoc. unfold C2. field. auto. Qed.
Lemma bsS_eq i : Re i <= 0 -> bsS ((C1 + i) / (C1 - i))%C = (- (C2 * (RtoC a * i)) / (C1 - i))%C.
Proof. intros Hi. pose proof (om_nz i Hi). unfold bsS. unfold C2. field. auto. Qed.
Lemma bsV_eq i : Re i <= 0 -> bsV ((C1 + i) / (C1 - i))%C =
  (C2 * C2 * C2 * C2 * (RtoC b * RtoC b + (RtoC a * RtoC a - C1) * (i * i)) / ((C1 - i) * (C1 - i)))%C.
Proof. intros Hi. pose proof (om_nz i Hi). unfold bsV. rtoc. unfold C2. field. auto. Qed.
Lemma bsD_nz i : Re i <= 0 -> bsD ((C1 + i) / (C1 - i))%C <> C0.
Proof.
  intros Hi E. rewrite bsD_eq in E by auto. pose proof (om_nz i Hi) as O.
  assert (F : (C2 * (RtoC b - i))%C = C0) by (transitivity ((C2 * (RtoC b - i) / (C1 - i)) * (C1 - i))%C; [field; auto|rewrite E; ring]).
  revert F. apply Cmul_neq0; [apply C2_nz|apply bm_nz; auto].
Qed.

Definition half (v : C) : C := (v * RtoC (1 / 2))%C.
Lemma half_sq v : (half v * half v)%C = (v * v / (C2 * C2))%C.
Proof. unfold half. replace (RtoC (1 / 2)) with (C1 / C2)%C; [field; apply C2_nz|]. unfold Cdiv, Cinv, Cnorm2; apply C_eq; simpl; field. Qed.

Lemma bs_body c : bsD c <> C0 ->
  bind (cdiv (addmul (Cadd (Cmul (Csqrt (bsV c)) (RtoC (1 / 2))) (RtoC a)) (- a) c) (bsD c)) (fun x =>
  bind (cdiv (addmul (Cadd (Cmul (Csqrt (bsV c)) (Copp (RtoC (1 / 2)))) (RtoC a)) (- a) c) (bsD c)) (fun y => Ok (x, y)))
  = Ok (((bsS c + half (Csqrt (bsV c))) / bsD c)%C, ((bsS c - half (Csqrt (bsV c))) / bsD c)%C).
Proof.
  intros D. rewrite !cdiv_ok by auto. cbn [bind]. rewrite !addmul_eq, RtoC_opp. do 2 f_equal; f_equal; unfold bsS, half; ring.
Qed.

Lemma bs_transform_fin i : Re i <= 0 -> let c := ((C1 + i) / (C1 - i))%C in
  bs_transform q (Fin i) = Ok (((bsS c + half (Csqrt (bsV c))) / bsD c)%C, ((bsS c - half (Csqrt (bsV c))) / bsD c)%C).
Proof.
  intros Hi c. rewrite <- bs_body by (apply bsD_nz; auto). unfold bs_transform. rewrite cdiv_ok by (apply om_nz; auto). cbn [bind]. fold c.
  unfold q. cbn [bd_a bd_b].
  replace (addmul (RtoC (b + 1)) (b - 1) c) with (bsD c) by (rewrite addmul_eq; reflexivity).
  replace ((addmul C0 (4 * (b * b + a * a - 1)) c + RtoC (8 * (b * b - a * a + 1))) * c + RtoC (4 * (a * a + b * b - 1)))%C with (bsV c); [reflexivity|].
  rewrite addmul_eq. unfold bsV. ring.
Qed.
Lemma bs_transform_inf : let c := RtoC (-1) in
  bs_transform q Inf = Ok (((bsS c + half (Csqrt (bsV c))) / bsD c)%C, ((bsS c - half (Csqrt (bsV c))) / bsD c)%C) /\ bsD c <> C0.
Proof.
  intros c. assert (D : bsD c <> C0).
  { intros E. apply (f_equal Re) in E. unfold bsD, c in E. simpl in E. lra. }
  split; auto. rewrite <- bs_body by auto. unfold bs_transform. cbn [bind]. fold c.
  unfold q. cbn [bd_a bd_b].
  replace (addmul (RtoC (b + 1)) (b - 1) c) with (bsD c) by (rewrite addmul_eq; reflexivity).
  replace ((addmul C0 (4 * (b * b + a * a - 1)) c + RtoC (8 * (b * b - a * a + 1))) * c + RtoC (4 * (a * a + b * b - 1)))%C with (bsV c); [reflexivity|].
  rewrite addmul_eq. unfold bsV. ring.
Qed.

Lemma half_real v : Im v = 0 \/ Re v = 0 -> Im (half v) = 0 \/ Re (half v) = 0.
Proof. intros [E|E]; [left|right]; unfold half; simpl; [change (snd v) with (Im v)|change (fst v) with (Re v)]; rewrite E; ring. Qed.

Lemma bs_quad c z : bsD c <> C0 ->
  ((z - (bsS c + half (Csqrt (bsV c))) / bsD c) * (z - (bsS c - half (Csqrt (bsV c))) / bsD c))%C =
  (((bsD c * z - bsS c) * (bsD c * z - bsS c) - bsV c / (C2 * C2)) / (bsD c * bsD c))%C.
Proof.
  intros D. pose proof (quad_roots' (bsS c + half (Csqrt (bsV c))) (bsS c - half (Csqrt (bsV c))) (bsD c) (bsS c) (bsV c / (C2 * C2))%C (half (Csqrt (bsV c))) z) as E.
  rewrite half_sq, Csqrt_sq in E. specialize (E eq_refl D eq_refl eq_refl). rewrite <- E. field. auto.
Qed.

Lemma bs_map : band_map (bs_transform q) b (bsN b) (qQ a).
Proof.
  constructor; auto.
  - intros z. unfold bsN, qM. apply C_eq; simpl; ring.
  - intros z. unfold qQ. apply C_eq; simpl; ring.
  - exists (- b), 1. split; [|split; [|lra]]; unfold bsN, qQ, qM; apply C_eq; simpl; ring.
  - intros [i|] Hi.
    + simpl in Hi. eexists. split; [apply bs_transform_fin; auto|]. cbn [fst snd]. set (c := ((C1 + i) / (C1 - i))%C). split.
      * intros z. cbn [lead poly].
        rewrite bs_quad by (apply bsD_nz; auto). unfold c. pose proof (om_nz i Hi) as O. pose proof (bm_nz b i Hb Hi) as B. pose proof C2_nz as T.
        rewrite bsD_eq, bsS_eq, bsV_eq by auto. unfold bsN, qQ, qM. rtoc. unfold C2 in *. field; repeat split; auto; try (intros F; apply (f_equal Re) in F; cbn [Re fst C0] in F; lra).
      * intros R. simpl in R. assert (IC : Im c = 0) by (apply real_div; simpl; change (snd i) with (Im i); lra). clearbody c.
        assert (IV : Im (bsV c) = 0) by (unfold bsV; simpl; change (snd c) with (Im c); rewrite IC; ring).
        apply rp_sum'; [| |apply half_real, Csqrt_real; auto]; [unfold bsS|unfold bsD]; simpl; change (snd c) with (Im c); rewrite IC; ring.
    + destruct bs_transform_inf as [E D]. eexists. split; [exact E|]. cbn [fst snd]. set (c := RtoC (-1)) in *. split.
      * intros z. cbn [lead poly]. rewrite bs_quad by auto.
        assert (E1 : bsD c = C2) by (unfold bsD, c; apply C_eq; simpl; ring).
        assert (E2 : bsS c = (C2 * RtoC a)%C) by (unfold bsS, c; apply C_eq; simpl; ring).
        assert (E3 : bsV c = (C2 * C2 * C2 * C2 * (RtoC a * RtoC a - C1))%C) by (unfold bsV, c; apply C_eq; simpl; ring).
        rewrite E1, E2, E3. unfold qQ. rtoc. pose proof C2_nz as T. unfold C2 in *. field; repeat split; auto; try (intros F; apply (f_equal Re) in F; cbn [Re fst C0] in F; lra).
      * intros _. apply rp_sum'; [| |apply half_real, Csqrt_real]; unfold bsS, bsD, bsV, c; simpl; ring.
  - intros z c Hz Hc. unfold bsN. apply stable_gen; auto.
    + replace (Re (qM z * Cconj (qQ a z))%C) with (Re (qQ a z * Cconj (qM z))%C) by (simpl; ring). apply cross_nonneg; auto.
    + intros E1 E2. apply (both_zero a z Ha E2 E1).
Qed.

(** The zeros that the band-stop transformer meets are distinct. *)
Lemma bs_adj zt : (zt = Inf \/ exists y, zt = Fin (0, y)) -> bs_adjust (rts (bs_transform q) zt) = rts (bs_transform q) zt.
Proof.
  intros Hz. assert (L : lhp zt) by (destruct Hz as [->|[y ->]]; simpl; auto; lra).
  unfold bs_adjust. destruct (Ceqb _ _) eqn:E; auto. exfalso.
  assert (EQ : snd (rts (bs_transform q) zt) = fst (rts (bs_transform q) zt)).
  { unfold Ceqb in E. destruct (Req_EM_T _ _); [|discriminate]. destruct (Req_EM_T _ _); [|discriminate]. apply C_eq; auto. }
  assert (K : forall c, bsD c <> C0 -> ((bsS c - half (Csqrt (bsV c))) / bsD c)%C = ((bsS c + half (Csqrt (bsV c))) / bsD c)%C -> bsV c = C0).
  { intros c D X. assert (Y : (C2 * half (Csqrt (bsV c)))%C = C0).
    { transitivity (((bsS c + half (Csqrt (bsV c))) / bsD c) * bsD c - ((bsS c - half (Csqrt (bsV c))) / bsD c) * bsD c)%C; [unfold C2; field; auto|].
      rewrite X. ring. }
    apply Cmul_eq0 in Y. destruct Y as [Y|Y]; [destruct (C2_nz Y)|].
    rewrite <- (Csqrt_sq (bsV c)). unfold half in Y. apply Cmul_eq0 in Y. destruct Y as [Y|Y].
    - rewrite Y. ring.
    - apply (f_equal Re) in Y. simpl in Y. lra. }
  destruct Hz as [->|[y ->]].
  - unfold rts in EQ. destruct bs_transform_inf as [X D]. rewrite X in EQ. cbn [fst snd] in EQ. apply K in EQ; auto.
    apply (f_equal Re) in EQ. unfold bsV in EQ. simpl in EQ. nra.
  - unfold rts in EQ. rewrite (bs_transform_fin (0, y)) in EQ by (simpl; lra). cbn [fst snd] in EQ.
    assert (Rz : Re (0, y) <= 0) by (simpl; lra).
    apply K in EQ; [|apply bsD_nz; auto]. rewrite bsV_eq in EQ by auto.
    pose proof (om_nz (0, y) Rz) as O.
    assert (F : (C2 * C2 * C2 * C2 * (RtoC b * RtoC b + (RtoC a * RtoC a - C1) * ((0, y) * (0, y))))%C = C0).
    { transitivity ((C2 * C2 * C2 * C2 * (RtoC b * RtoC b + (RtoC a * RtoC a - C1) * ((0, y) * (0, y))) / ((C1 - (0, y)) * (C1 - (0, y)))) * ((C1 - (0, y)) * (C1 - (0, y))))%C; [field; auto|rewrite EQ; ring]. }
    apply (f_equal Re) in F. simpl in F. ring_simplify in F.
    assert (0 < b * b) by nra. assert (0 <= (1 - a * a) * (y * y)) by (apply Rmult_le_pos; [nra|apply Rle_0_sqr]). nra.
Qed.
End Roots.
