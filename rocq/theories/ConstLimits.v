(** The constants defined by limits: Euler's, Apery's, Catalan's, Glaisher's and Khinchin's. *)
From Coq Require Import Reals Lra Lia ZArith List Bool QArith.
From Verif Require Import ConstModel ConstSpec ConstProofs ConstSeries.
Import ListNotations.
Local Open Scope R_scope.

(** ** Certificates: coefficients of the corrections, and enclosures *)
Definition zeta_u : list Z := [210; (-210); 490; (-2170); 16002; (-178850); 2828954]%Z.
Definition zeta_qu : Z := 105.
Definition zeta_l : list Z := [210; (-210); 490; (-2170); 16002; (-178850); 2828954; (-60203850)]%Z.
Definition zeta_ql : Z := 105.
Definition euler_u : list Z := [(-2042040); 1429428; (-3014440); 12966954; (-94862040); 1058028796; (-16726349640); 355910271717]%Z.
Definition euler_qu : Z := 12252240.
Definition euler_l : list Z := [(-60060); 42042; (-88660); 381381; (-2790060); 31118494; (-491951460)]%Z.
Definition euler_ql : Z := 360360.
Definition euler_lcm : Z := 765765.
Definition catalan_u : list Z := [4096; (-3072); 6400; (-27328); 199440; (-2222924); 35135945]%Z.
Definition catalan_qu : Z := 32768.
Definition catalan_l : list Z := [1024; (-768); 1600; (-6832); 49860; (-555731)]%Z.
Definition catalan_ql : Z := 8192.
Definition glaisher_u : list Z := [(-111546435); 63740820; (-127481640); 540831200; (-3942481152); 43932134400; (-694363997184); 14774124851200; (-407164288434176); 14108983638097920]%Z.
Definition glaisher_qu : Z := 20078358300.
Definition glaisher_l : list Z := [(-4849845); 2771340; (-5542680); 23514400; (-171412224); 1910092800; (-30189739008); 642353254400; (-17702795149312)]%Z.
Definition glaisher_ql : Z := 872972100.
Definition glaisher_lcm : Z := 334639305.
Definition khinchin_u : list Z := [1172792070450; 260620460100; 224133595686; (-34040223360); 981835873018; (-8029387138500); 108499478167278; (-1999665400476744); 48628194455658818]%Z.
Definition khinchin_qu : Z := 586396035225.
Definition khinchin_l : list Z := [423377937432450; 94083986096100; 80912228042646; (-12288520632960); 354442750159498; (-2898608756998500); 39168311618387358; (-721879209572104584); 17554778198492833298; (-544274878081759623084)]%Z.
Definition khinchin_ql : Z := 211688968716225.
Definition khinchin_lcm : Z := 14549535.

Definition zeta_lo : Z := 1756808132132661657469956450390767889412795146164.
Definition zeta_hi : Z := 1756808132132661657469956450390767889450047180420.
Definition euler_lo : Z := 843601639346636067534507714909991514957748436329.
Definition euler_hi : Z := 843601639346636067534507714909991514992114847124.
Definition catalan_lo : Z := 1338685215628778946697244561490145189621445457753.
Definition catalan_hi : Z := 1338685215628778946697244561490145189657372311634.
Definition glaisher_lo : Z := 363555075478268186384358751066058002410068456015.
Definition glaisher_hi : Z := 363555075478268186384358751066058002444508461830.
Definition khinchin_lo : Z := 1000726399606110444291862710516166672259838419833.
Definition khinchin_hi : Z := 1000726399606110444291862710516166672348210704041.

Lemma X_INR n c : IZR (2 * Z.of_nat n + c) = 2 * INR n + IZR c.
Proof. rewrite plus_IZR, mult_IZR, <- INR_IZR_INZ. reflexivity. Qed.
Lemma INR_add1 n : INR (n + 1) = INR n + 1.
Proof. rewrite plus_INR. reflexivity. Qed.
Lemma div_le_div a b c : 0 < c -> a <= b -> a / c <= b / c.
Proof. intros C H. apply Rmult_le_compat_r; auto. apply Rlt_le, Rinv_0_lt_compat; auto. Qed.
Ltac zle := apply V_le; vm_compute; discriminate.

(** ** Apery's constant *)
Definition zeta_a (n : nat) : R := sum_f_R0 (fun k => 1 / INR (k + 1) ^ 3) n.
Lemma zeta_step n : zeta_a (S n) - zeta_a n = 8 / IZR (2 * Z.of_nat n + 4) ^ 3.
Proof.
  unfold zeta_a. cbn [sum_f_R0]. rewrite X_INR, INR_add1, S_INR. pose proof (pos_INR n). field. split; apply Rgt_not_eq; lra.
Qed.
Lemma zeta_enclosed x : 602 <= x -> G zeta_l zeta_ql false (x - 1) - G zeta_l zeta_ql false (x + 1) <= 8 / x ^ 3 <= G zeta_u zeta_qu false (x - 1) - G zeta_u zeta_qu false (x + 1).
Proof.
  intros X. assert (P : 0 < peval (ppow pX 3) x) by (rewrite ppow_ok, pX_ok; apply pow_lt; lra).
  assert (E : 8 / x ^ 3 = peval [8%Z] x / peval (ppow pX 3) x) by (rewrite ppow_ok, pX_ok; cbn [peval]; field; lra). rewrite E.
  split; [apply above_ok with 602%Z|apply below_ok with 602%Z]; auto; try lia; vm_compute; reflexivity.
Qed.
Lemma zeta_exists : exists x, is_apery x.
Proof. apply (steps_exists zeta_a (fun x => 8 / x ^ 3) 4 299 false zeta_l zeta_ql zeta_u zeta_qu); try reflexivity; try (unfold Z.le; discriminate); [apply zeta_step|apply zeta_enclosed]. Qed.
Lemma zeta_inside x : is_apery x -> inside x (zeta_lo, zeta_hi).
Proof.
  intros H. assert (B : zeta_a 299 + G zeta_l zeta_ql false (IZR 601) <= x <= zeta_a 299 + G zeta_u zeta_qu false (IZR 601)).
  { replace (IZR 601) with (IZR (2 * Z.of_nat 299 + 4) - 1) by (rewrite <- minus_IZR; reflexivity).
    apply (steps_bounds zeta_a (fun x => 8 / x ^ 3) 4 299 false zeta_l zeta_ql zeta_u zeta_qu); try reflexivity; try (unfold Z.le; discriminate); [apply zeta_step|apply zeta_enclosed|exact H]. }
  pose proof (zsum_bounds (fun _ => 1%Z) (fun k => (Z.of_nat k + 1) ^ 3)%Z (fun k => 1 / INR (k + 1) ^ 3) 299) as S. fold (zeta_a 299) in S. specialize (S ltac:(intros k; split; [apply Z.pow_pos_nonneg; lia|rewrite <- pow_IZR with (n := 3%nat), INR_IZR_INZ; repeat f_equal; lia])).
  pose proof (Gq_ok zeta_l zeta_ql false 601 ltac:(reflexivity) ltac:(reflexivity)) as L. pose proof (Gq_ok zeta_u zeta_qu false 601 ltac:(reflexivity) ltac:(reflexivity)) as U.
  unfold inside. cbn [fst snd]. split.
  - apply Rle_trans with (V (zsum (fun _ => 1%Z) (fun k => (Z.of_nat k + 1) ^ 3)%Z 299 + Gq zeta_l zeta_ql false 601)); [zle|]. rewrite V_add. lra.
  - apply Rle_trans with (V (zsum (fun _ => 1%Z) (fun k => (Z.of_nat k + 1) ^ 3)%Z 299 + Z.of_nat 300 + (Gq zeta_u zeta_qu false 601 + 1))); [|zle]. rewrite V_add. lra.
Qed.

(** ** Catalan's constant *)
Definition catalan_s (n : nat) : R := sum_f_R0 (fun k => (-1) ^ k / INR (2 * k + 1) ^ 2) n.
Definition catalan_a (n : nat) : R := catalan_s (2 * n + 1).
Definition catalan_d (x : R) : R := 1 / (2 * x - 1) ^ 2 - 1 / (2 * x + 1) ^ 2.
Lemma sign_even n : (-1) ^ (2 * n) = 1.
Proof. rewrite pow_mult. replace ((-1) ^ 2) with 1 by ring. apply pow1. Qed.
Lemma catalan_step n : catalan_a (S n) - catalan_a n = catalan_d (IZR (2 * Z.of_nat n + 3)).
Proof.
  unfold catalan_a, catalan_s. replace (2 * S n + 1)%nat with (S (S (2 * n + 1))) by lia. cbn [sum_f_R0]. rewrite X_INR. unfold catalan_d.
  replace ((-1) ^ S (2 * n + 1)) with 1 by (replace (S (2 * n + 1)) with (2 * S n)%nat by lia; symmetry; apply sign_even).
  replace ((-1) ^ S (S (2 * n + 1))) with (-1) by (replace (S (S (2 * n + 1))) with (S (2 * S n)) by lia; cbn [pow]; rewrite sign_even; ring).
  replace (INR (2 * S (2 * n + 1) + 1)) with (4 * INR n + 5) by (rewrite !plus_INR, !mult_INR, !S_INR, !plus_INR, !mult_INR; simpl; ring).
  replace (INR (2 * S (S (2 * n + 1)) + 1)) with (4 * INR n + 7) by (rewrite !plus_INR, !mult_INR, !S_INR, !plus_INR, !mult_INR; simpl; ring).
  pose proof (pos_INR n). field. repeat split; apply Rgt_not_eq; lra.
Qed.
Lemma catalan_enclosed x : 1001 <= x -> G catalan_l catalan_ql false (x - 1) - G catalan_l catalan_ql false (x + 1) <= catalan_d x <= G catalan_u catalan_qu false (x - 1) - G catalan_u catalan_qu false (x + 1).
Proof.
  intros X. assert (Q : peval (ppow [-1; 0; 4]%Z 2) x = (4 * (x * x) - 1) ^ 2) by (rewrite ppow_ok; f_equal; cbn [peval]; ring).
  assert (P : 0 < peval (ppow [-1; 0; 4]%Z 2) x) by (rewrite Q; apply pow_lt; nra).
  assert (E : catalan_d x = peval (pscale 8 pX) x / peval (ppow [-1; 0; 4]%Z 2) x) by (rewrite Q, pscale_ok, pX_ok; unfold catalan_d; field; repeat split; apply Rgt_not_eq; nra). rewrite E.
  split; [apply above_ok with 1001%Z|apply below_ok with 1001%Z]; auto; try lia; vm_compute; reflexivity.
Qed.
Lemma catalan_exists : exists x, is_catalan x.
Proof.
  destruct (alternated_series (fun k => 1 / INR (2 * k + 1) ^ 2)) as [l Hl].
  - intros n. assert (A : 0 < INR (2 * n + 1)) by (apply lt_0_INR; lia). assert (B : INR (2 * n + 1) <= INR (2 * S n + 1)) by (apply le_INR; lia).
    unfold Rdiv. rewrite !Rmult_1_l. apply Rinv_le_contravar; [apply pow_lt; auto|]. apply pow_incr. lra.
  - apply cv_squeeze with (fun n => 1 / INR (S n)); [|apply cv_inv_nat]. intros n. rewrite Rminus_0_r. assert (A : 1 <= INR (S n)) by (change 1 with (INR 1); apply le_INR; lia). assert (B : INR (S n) <= INR (2 * n + 1)) by (apply le_INR; lia).
    rewrite Rabs_right; [|apply Rle_ge, Rlt_le, Rdiv_lt_0_compat; [lra|apply pow_lt; lra]]. unfold Rdiv. rewrite !Rmult_1_l. apply Rinv_le_contravar; [lra|]. cbn [pow]. nra.
  - exists l. apply cv_ext with (2 := Hl). intros n. apply sum_eq. intros k _. unfold tg_alt, Rdiv. ring.
Qed.
Lemma catalan_inside x : is_catalan x -> inside x (catalan_lo, catalan_hi).
Proof.
  intros H. assert (B : catalan_a 499 + G catalan_l catalan_ql false (IZR 1000) <= x <= catalan_a 499 + G catalan_u catalan_qu false (IZR 1000)).
  { replace (IZR 1000) with (IZR (2 * Z.of_nat 499 + 3) - 1) by (rewrite <- minus_IZR; reflexivity).
    apply (steps_bounds catalan_a catalan_d 3 499 false catalan_l catalan_ql catalan_u catalan_qu); try reflexivity; try (unfold Z.le; discriminate); [apply catalan_step|apply catalan_enclosed|].
    intros e E. destruct (H e E) as [N HN]. exists N. intros n Hn. apply HN. lia. }
  pose proof (zsum_bounds sign (fun k => (odd k) ^ 2)%Z (fun k => (-1) ^ k / INR (2 * k + 1) ^ 2) (2 * 499 + 1)) as S. fold (catalan_s (2 * 499 + 1)) in S. fold (catalan_a 499) in S.
  specialize (S ltac:(intros k; split; [apply Z.pow_pos_nonneg; unfold odd; lia|rewrite <- pow_IZR with (n := 2%nat), odd_R, sign_R; reflexivity])).
  change (Z.of_nat (Datatypes.S (2 * 499 + 1)%nat)) with (Z.of_nat 1000) in S.
  pose proof (Gq_ok catalan_l catalan_ql false 1000 ltac:(reflexivity) ltac:(reflexivity)) as L. pose proof (Gq_ok catalan_u catalan_qu false 1000 ltac:(reflexivity) ltac:(reflexivity)) as U.
  unfold inside. cbn [fst snd]. split.
  - apply Rle_trans with (V (zsum sign (fun k => (odd k) ^ 2)%Z (2 * 499 + 1) + Gq catalan_l catalan_ql false 1000)); [zle|]. rewrite V_add. lra.
  - apply Rle_trans with (V (zsum sign (fun k => (odd k) ^ 2)%Z (2 * 499 + 1) + Z.of_nat 1000 + (Gq catalan_u catalan_qu false 1000 + 1))); [|zle]. rewrite V_add. lra.
Qed.

(** ** Euler's constant *)
Definition euler_h (n : nat) : R := sum_f_R0 (fun k => 1 / INR (k + 1)) n.
Definition euler_a (n : nat) : R := euler_h n - ln ((2 * INR n + 3) / 2).
Definition euler_d (x : R) : R := 2 / x - lnx x.
Lemma ln_quot a b : 0 < a -> 0 < b -> ln (a / b) = ln a - ln b.
Proof. intros A B. unfold Rdiv. rewrite ln_mult, ln_Rinv; try (apply Rinv_0_lt_compat); auto; ring. Qed.
Lemma euler_step n : euler_a (S n) - euler_a n = euler_d (IZR (2 * Z.of_nat n + 4)).
Proof.
  unfold euler_a, euler_h, euler_d. cbn [sum_f_R0]. rewrite X_INR, INR_add1, S_INR. pose proof (pos_INR n). rewrite lnx_eq, !ln_quot by lra.
  replace (2 * (INR n + 1) + 3) with (2 * INR n + 4 + 1) by ring. replace (2 * INR n + 4 - 1) with (2 * INR n + 3) by ring.
  replace (1 / (INR n + 1 + 1)) with (2 / (2 * INR n + 4)) by (field; split; apply Rgt_not_eq; lra). ring.
Qed.
Lemma euler_frac n d x : x <> 0 -> peval d x <> 0 -> peval (psub (pscale 2 d) (pmul pX n)) x / peval (pmul pX d) x = 2 / x - peval n x / peval d x.
Proof. intros X D. rewrite psub_ok, pscale_ok, !pmul_ok, pX_ok. field. auto. Qed.
Lemma euler_enclosed x : 730 <= x -> G euler_l euler_ql false (x - 1) - G euler_l euler_ql false (x + 1) <= euler_d x <= G euler_u euler_qu false (x - 1) - G euler_u euler_qu false (x + 1).
Proof.
  intros X. destruct (lnx_bounds euler_lcm 9 x) as [A B]; try (vm_compute; reflexivity); [lia|lra|]. pose proof (ln_den_pos euler_lcm 9 x ltac:(reflexivity) ltac:(lra)) as D.
  assert (P : 0 < peval (pmul pX (ln_den euler_lcm 9)) x) by (rewrite pmul_ok, pX_ok; apply Rmult_lt_0_compat; lra).
  assert (E : forall n, peval (psub (pscale 2 (ln_den euler_lcm 9)) (pmul pX n)) x / peval (pmul pX (ln_den euler_lcm 9)) x = 2 / x - peval n x / peval (ln_den euler_lcm 9) x)
    by (intros n; apply euler_frac; lra).
  unfold euler_d. split.
  - eapply Rle_trans; [apply above_ok with (a := 730%Z) (num := psub (pscale 2 (ln_den euler_lcm 9)) (pmul pX (padd [euler_lcm] (ln_num euler_lcm 9)))) (4 := X) (5 := P); try (vm_compute; reflexivity)|]. rewrite E. lra.
  - eapply Rle_trans; [|apply below_ok with (a := 730%Z) (num := psub (pscale 2 (ln_den euler_lcm 9)) (pmul pX (ln_num euler_lcm 9))) (4 := X) (5 := P); try (vm_compute; reflexivity)]. rewrite E. lra.
Qed.
Lemma ln_le_minus1 x : 0 < x -> ln x <= x - 1.
Proof. intros X. pose proof (exp_ineq1_le (ln x)) as H. rewrite exp_ln in H by auto. lra. Qed.
Lemma euler_same x : is_euler x <-> Un_cv euler_a x.
Proof.
  assert (D : Un_cv (fun n => ln ((2 * INR n + 3) / 2) - ln (INR (n + 1))) 0).
  { apply cv_squeeze with (fun n => (1 / 2) / INR (S n)); [|apply cv_inv_nat]. intros n. rewrite Rminus_0_r, INR_add1, S_INR. pose proof (pos_INR n) as P. rewrite <- ln_quot by lra.
    set (r := (2 * INR n + 3) / 2 / (INR n + 1)). assert (E : r = 1 + 1 / 2 / (INR n + 1)) by (unfold r; field; lra). assert (Q : 0 < 1 / 2 / (INR n + 1)) by (apply Rdiv_lt_0_compat; lra).
    pose proof (ln_le_minus1 r ltac:(lra)). assert (0 <= ln r) by (rewrite <- ln_1; apply ln_mono; lra). rewrite Rabs_right by lra. lra. }
  unfold is_euler. split; intros H.
  - replace x with (x - 0) by ring. eapply cv_ext; [|apply (CV_minus _ _ _ _ H D)]. intros n. cbn beta. unfold euler_a, euler_h. ring.
  - replace x with (x + 0) by ring. eapply cv_ext; [|apply (CV_plus _ _ _ _ H D)]. intros n. cbn beta. unfold euler_a, euler_h. ring.
Qed.
Lemma euler_exists : exists x, is_euler x.
Proof.
  destruct (steps_exists euler_a euler_d 4 363 false euler_l euler_ql euler_u euler_qu) as [l Hl]; try reflexivity; try (unfold Z.le; discriminate); [apply euler_step|apply euler_enclosed|].
  exists l. apply euler_same, Hl.
Qed.
Definition euler_log : itv := match eval (fun _ => (0, 0)%Z) (Ln (Num (729 # 2)) 8) with Some i => i | None => (0, 0)%Z end.
Lemma euler_log_ok : inside (ln (729 / 2)) euler_log.
Proof.
  apply (eval_ok (fun _ => 0) (fun _ => (0, 0)%Z) (Ln (Num (729 # 2)) 8)); [intros _; unfold inside; cbn [fst snd]; rewrite V_0; lra|]. vm_compute. reflexivity.
Qed.
Lemma euler_split a b c d : V (a + b + (- c + (d + 1))) = V (a + b) - V c + V (d + 1).
Proof. rewrite !V_add, V_opp. ring. Qed.
Lemma euler_inside x : is_euler x -> inside x (euler_lo, euler_hi).
Proof.
  intros H. apply euler_same in H. assert (B : euler_a 363 + G euler_l euler_ql false (IZR 729) <= x <= euler_a 363 + G euler_u euler_qu false (IZR 729)).
  { replace (IZR 729) with (IZR (2 * Z.of_nat 363 + 4) - 1) by (rewrite <- minus_IZR; reflexivity).
    apply (steps_bounds euler_a euler_d 4 363 false euler_l euler_ql euler_u euler_qu); try reflexivity; try (unfold Z.le; discriminate); [apply euler_step|apply euler_enclosed|exact H]. }
  pose proof (zsum_bounds (fun _ => 1%Z) (fun k => (Z.of_nat k + 1))%Z (fun k => 1 / INR (k + 1)) 363) as S. fold (euler_h 363) in S. specialize (S ltac:(intros k; split; [lia|rewrite INR_IZR_INZ; repeat f_equal; lia])).
  pose proof (Gq_ok euler_l euler_ql false 729 ltac:(reflexivity) ltac:(reflexivity)) as L. pose proof (Gq_ok euler_u euler_qu false 729 ltac:(reflexivity) ltac:(reflexivity)) as U.
  pose proof euler_log_ok as [L1 L2]. unfold euler_a in B. replace ((2 * INR 363 + 3) / 2) with (729 / 2) in B by (rewrite INR_IZR_INZ; change (Z.of_nat 363) with 363%Z; field).
  unfold inside. cbn [fst snd]. split.
  - apply Rle_trans with (V (zsum (fun _ => 1%Z) (fun k => (Z.of_nat k + 1))%Z 363 + (- snd euler_log + Gq euler_l euler_ql false 729))); [zle|]. rewrite !V_add, V_opp. lra.
  - apply Rle_trans with (V (zsum (fun _ => 1%Z) (fun k => (Z.of_nat k + 1))%Z 363 + Z.of_nat 364 + (- fst euler_log + (Gq euler_u euler_qu false 729 + 1)))); [|zle].
    rewrite euler_split. lra.
Qed.

(** ** Glaisher's constant *)
Definition glaisher_a (i : nat) : R :=
  let n := INR (i + 1) in ln (hyperfactorial (i + 1)) - (n ^ 2 / 2 + n / 2 + 1 / 12) * ln n + n ^ 2 / 4.
Definition glaisher_d (x : R) : R := x / 4 - (x * x / 8 - 1 / 24) * lnx x.
Lemma hyperfactorial_pos n : 0 < hyperfactorial n.
Proof. induction n as [|n IH]; cbn [hyperfactorial]; [lra|]. apply Rmult_lt_0_compat; auto. apply pow_lt, lt_0_INR. lia. Qed.
Lemma glaisher_step n : glaisher_a (S n) - glaisher_a n = glaisher_d (IZR (2 * Z.of_nat n + 3)).
Proof.
  unfold glaisher_a, glaisher_d. cbn zeta. rewrite X_INR. pose proof (pos_INR n) as P. rewrite lnx_eq by lra.
  replace (S n + 1)%nat with (S (n + 1)) by lia. cbn [hyperfactorial]. assert (Q : 0 < INR (S (n + 1))) by (apply lt_0_INR; lia). rewrite ln_mult, ln_pow by (auto using hyperfactorial_pos, pow_lt).
  replace (INR (S (n + 1))) with (INR n + 2) by (rewrite S_INR, INR_add1; ring). rewrite INR_add1.
  replace ((2 * INR n + 3 + 1) / (2 * INR n + 3 - 1)) with ((INR n + 2) / (INR n + 1)) by (field; split; apply Rgt_not_eq; lra). rewrite ln_quot by lra. field.
Qed.
Lemma glaisher_frac n d x : peval d x <> 0 -> peval (psub (pscale 6 (pmul pX d)) (pmul [-1; 0; 3]%Z n)) x / peval (pscale 24 d) x = x / 4 - (x * x / 8 - 1 / 24) * (peval n x / peval d x).
Proof. intros D. rewrite psub_ok, !pscale_ok, !pmul_ok, pX_ok. replace (peval [-1; 0; 3]%Z x) with (3 * (x * x) - 1) by (cbn [peval]; ring). field. auto. Qed.
Lemma glaisher_enclosed x : 203 <= x -> G glaisher_l glaisher_ql false (x - 1) - G glaisher_l glaisher_ql false (x + 1) <= glaisher_d x <= G glaisher_u glaisher_qu false (x - 1) - G glaisher_u glaisher_qu false (x + 1).
Proof.
  intros X. destruct (lnx_bounds glaisher_lcm 12 x) as [A B]; try (vm_compute; reflexivity); [lia|lra|]. pose proof (ln_den_pos glaisher_lcm 12 x ltac:(reflexivity) ltac:(lra)) as D.
  assert (P : 0 < peval (pscale 24 (ln_den glaisher_lcm 12)) x) by (rewrite pscale_ok; lra).
  assert (E : forall n, peval (psub (pscale 6 (pmul pX (ln_den glaisher_lcm 12))) (pmul [-1; 0; 3]%Z n)) x / peval (pscale 24 (ln_den glaisher_lcm 12)) x = x / 4 - (x * x / 8 - 1 / 24) * (peval n x / peval (ln_den glaisher_lcm 12) x))
    by (intros n; apply glaisher_frac; lra).
  assert (F : 0 <= x * x / 8 - 1 / 24) by nra. unfold glaisher_d. split.
  - eapply Rle_trans; [apply above_ok with (a := 203%Z) (num := psub (pscale 6 (pmul pX (ln_den glaisher_lcm 12))) (pmul [-1; 0; 3]%Z (padd [glaisher_lcm] (ln_num glaisher_lcm 12)))) (4 := X) (5 := P); try (vm_compute; reflexivity)|]. rewrite E.
    pose proof (Rmult_le_compat_l _ _ _ F B). lra.
  - eapply Rle_trans; [|apply below_ok with (a := 203%Z) (num := psub (pscale 6 (pmul pX (ln_den glaisher_lcm 12))) (pmul [-1; 0; 3]%Z (ln_num glaisher_lcm 12))) (4 := X) (5 := P); try (vm_compute; reflexivity)]. rewrite E.
    pose proof (Rmult_le_compat_l _ _ _ F A). lra.
Qed.
Lemma cv_exp a l : Un_cv a l -> Un_cv (fun n => exp (a n)) (exp l).
Proof. intros H. apply (continuity_seq exp a l); auto. apply derivable_continuous_pt, derivable_pt_exp. Qed.
Lemma glaisher_exists_log : exists l, Un_cv glaisher_a l.
Proof. apply (steps_exists glaisher_a glaisher_d 3 100 false glaisher_l glaisher_ql glaisher_u glaisher_qu); try reflexivity; try (unfold Z.le; discriminate); [apply glaisher_step|apply glaisher_enclosed]. Qed.
Lemma div_exp h z : 0 < h -> h / exp z = exp (ln h - z).
Proof. intros H. unfold Rminus. rewrite exp_plus, exp_Ropp, exp_ln by auto. reflexivity. Qed.
Lemma glaisher_same l : Un_cv glaisher_a l -> is_glaisher (exp l).
Proof.
  intros H. apply cv_exp in H. apply cv_ext with (2 := H). intros n. cbn zeta beta. unfold glaisher_a. cbn zeta. unfold Rpower. rewrite <- exp_plus.
  rewrite div_exp by apply hyperfactorial_pos. f_equal. ring.
Qed.
Lemma glaisher_exists : exists x, is_glaisher x.
Proof. destruct glaisher_exists_log as [l H]. exists (exp l). apply glaisher_same, H. Qed.
Fixpoint glaisher_dn (n : nat) : Z := match n with O => 6 * one | S k => (glaisher_dn k + (let x := 2 * Z.of_nat k + 3 in 6 * x * one - (3 * x * x - 1) * lnr_up x))%Z end.
Fixpoint glaisher_up (n : nat) : Z := match n with O => 6 * one | S k => (glaisher_up k + (let x := 2 * Z.of_nat k + 3 in 6 * x * one - (3 * x * x - 1) * lnr_dn x))%Z end.
Lemma glaisher_term g x l : V (g + (6 * x * one - (3 * x * x - 1) * l)) = V g + (6 * IZR x - (3 * IZR x * IZR x - 1) * V l).
Proof. unfold Z.sub at 1. rewrite !V_add, V_opp, !V_scale, V_one, minus_IZR, !mult_IZR. ring. Qed.
Lemma glaisher_sum n : V (glaisher_dn n) <= 24 * glaisher_a n <= V (glaisher_up n).
Proof.
  induction n as [|n IH]; cbn [glaisher_dn glaisher_up].
  - rewrite V_scale, V_one. unfold glaisher_a. cbn zeta. replace (INR (0 + 1)) with 1 by reflexivity. cbn [Nat.add hyperfactorial]. replace (1 * INR 1 ^ 1) with 1 by (simpl; ring). rewrite ln_1. lra.
  - cbn zeta. pose proof (glaisher_step n) as S. set (x := (2 * Z.of_nat n + 3)%Z) in *. pose proof (lnr_ok x ltac:(lia)) as L. fold (lnx (IZR x)) in L.
    assert (X : 3 <= IZR x) by (apply IZR_le; lia). unfold glaisher_d in S. rewrite !glaisher_term.
    assert (F : 0 <= 3 * IZR x * IZR x - 1) by nra. pose proof (Rmult_le_compat_l _ _ _ F (proj1 L)). pose proof (Rmult_le_compat_l _ _ _ F (proj2 L)).
    replace (24 * glaisher_a (Datatypes.S n)) with (24 * glaisher_a n + (6 * IZR x - (3 * IZR x * IZR x - 1) * lnx (IZR x))) by (replace (glaisher_a (Datatypes.S n)) with (glaisher_a n + (IZR x / 4 - (IZR x * IZR x / 8 - 1 / 24) * lnx (IZR x))) by lra; field). lra.
Qed.
Lemma glaisher_inside l : Un_cv glaisher_a l -> inside l (glaisher_lo, glaisher_hi).
Proof.
  intros H. assert (B : glaisher_a 100 + G glaisher_l glaisher_ql false (IZR 202) <= l <= glaisher_a 100 + G glaisher_u glaisher_qu false (IZR 202)).
  { replace (IZR 202) with (IZR (2 * Z.of_nat 100 + 3) - 1) by (rewrite <- minus_IZR; reflexivity).
    apply (steps_bounds glaisher_a glaisher_d 3 100 false glaisher_l glaisher_ql glaisher_u glaisher_qu); try reflexivity; try (unfold Z.le; discriminate); [apply glaisher_step|apply glaisher_enclosed|exact H]. }
  pose proof (glaisher_sum 100) as S.
  pose proof (Gq_ok glaisher_l glaisher_ql false 202 ltac:(reflexivity) ltac:(reflexivity)) as L. pose proof (Gq_ok glaisher_u glaisher_qu false 202 ltac:(reflexivity) ltac:(reflexivity)) as U.
  assert (A1 : V (24 * (glaisher_lo - Gq glaisher_l glaisher_ql false 202)) <= V (glaisher_dn 100)) by zle.
  assert (A2 : V (glaisher_up 100) <= V (24 * (glaisher_hi - (Gq glaisher_u glaisher_qu false 202 + 1)))) by zle.
  rewrite V_scale in A1, A2. unfold Z.sub in A1, A2. rewrite V_add, V_opp in A1. rewrite (V_add glaisher_hi), V_opp in A2.
  unfold inside. cbn [fst snd]. lra.
Qed.
Lemma glaisher_log x : is_glaisher x -> exists l, Un_cv glaisher_a l /\ x = exp l.
Proof. intros H. destruct glaisher_exists_log as [l Hl]. exists l. split; auto. apply (UL_sequence _ _ _ H (glaisher_same l Hl)). Qed.

(** ** Khinchin's constant *)
(** ln ((k + 1) / k). *)
Definition kl (k : nat) : R := lnx (2 * INR k + 1).
Definition khinchin_a (n : nat) : R := sum_f_R0 (fun i => kl (i + 1) * kl (i + 2)) n.
Definition khinchin_d (x : R) : R := lnx (x - 1) * lnx (x + 1).
Lemma kl_eq k : (0 < k)%nat -> kl k = ln (INR k + 1) - ln (INR k).
Proof. intros K. apply lt_0_INR in K. unfold kl. rewrite lnx_eq by lra. rewrite <- ln_quot by lra. f_equal. field. lra. Qed.
Lemma khinchin_step n : khinchin_a (S n) - khinchin_a n = khinchin_d (IZR (2 * Z.of_nat n + 6)).
Proof.
  unfold khinchin_a. cbn [sum_f_R0]. unfold khinchin_d, kl. rewrite X_INR, !plus_INR, S_INR. change (INR 1) with 1. replace (INR 2) with 2 by reflexivity.
  replace (2 * (INR n + 1 + 1) + 1) with (2 * INR n + 6 - 1) by ring. replace (2 * (INR n + 1 + 2) + 1) with (2 * INR n + 6 + 1) by ring. ring.
Qed.
Lemma khinchin_frac n d x : peval d (x - 1) <> 0 -> peval d (x + 1) <> 0 ->
  peval (pmul (pshift n (-1)) (pshift n 1)) x / peval (pmul (pshift d (-1)) (pshift d 1)) x = peval n (x - 1) / peval d (x - 1) * (peval n (x + 1) / peval d (x + 1)).
Proof.
  intros D1 D2. rewrite !pmul_ok, !pshift_ok. replace (-1 + x) with (x - 1) by ring. replace (1 + x) with (x + 1) by ring. field. auto.
Qed.
Lemma khinchin_enclosed x : 204 <= x -> G khinchin_l khinchin_ql true (x - 1) - G khinchin_l khinchin_ql true (x + 1) <= khinchin_d x <= G khinchin_u khinchin_qu true (x - 1) - G khinchin_u khinchin_qu true (x + 1).
Proof.
  intros X. destruct (lnx_bounds khinchin_lcm 10 (x - 1)) as [A1 B1]; try (vm_compute; reflexivity); [lia|lra|]. destruct (lnx_bounds khinchin_lcm 10 (x + 1)) as [A2 B2]; try (vm_compute; reflexivity); [lia|lra|].
  pose proof (ln_den_pos khinchin_lcm 10 (x - 1) ltac:(reflexivity) ltac:(lra)) as D1. pose proof (ln_den_pos khinchin_lcm 10 (x + 1) ltac:(reflexivity) ltac:(lra)) as D2.
  assert (S1 : forall p, peval (pshift p (-1)) x = peval p (x - 1)) by (intros p; rewrite pshift_ok; f_equal; lra).
  assert (S2 : forall p, peval (pshift p 1) x = peval p (x + 1)) by (intros p; rewrite pshift_ok; f_equal; lra).
  set (d := ln_den khinchin_lcm 10) in *.
  assert (P : 0 < peval (pmul (pshift d (-1)) (pshift d 1)) x) by (rewrite pmul_ok, S1, S2; apply Rmult_lt_0_compat; auto).
  assert (E : forall n, peval (pmul (pshift n (-1)) (pshift n 1)) x / peval (pmul (pshift d (-1)) (pshift d 1)) x = peval n (x - 1) / peval d (x - 1) * (peval n (x + 1) / peval d (x + 1)))
    by (intros n; apply khinchin_frac; lra).
  assert (Z : forall y, 2 <= y -> 0 <= peval (ln_num khinchin_lcm 10) y) by (intros y Y; apply nonneg_ok; [vm_compute; reflexivity|lra]).
  assert (Z1 : 0 <= peval (ln_num khinchin_lcm 10) (x - 1) / peval d (x - 1)) by (apply Rmult_le_pos; [apply Z; lra|apply Rlt_le, Rinv_0_lt_compat; auto]).
  assert (Z2 : 0 <= peval (ln_num khinchin_lcm 10) (x + 1) / peval d (x + 1)) by (apply Rmult_le_pos; [apply Z; lra|apply Rlt_le, Rinv_0_lt_compat; auto]).
  unfold khinchin_d. split.
  - eapply Rle_trans; [apply above_ok with (a := 204%Z) (num := pmul (pshift (ln_num khinchin_lcm 10) (-1)) (pshift (ln_num khinchin_lcm 10) 1)) (4 := X) (5 := P); try (vm_compute; reflexivity)|]. rewrite E.
    apply Rmult_le_compat; lra.
  - eapply Rle_trans; [|apply below_ok with (a := 204%Z) (num := pmul (pshift (padd [khinchin_lcm] (ln_num khinchin_lcm 10)) (-1)) (pshift (padd [khinchin_lcm] (ln_num khinchin_lcm 10)) 1)) (4 := X) (5 := P); try (vm_compute; reflexivity)]. rewrite E.
    apply Rmult_le_compat; lra.
Qed.
Lemma khinchin_exists_log : exists l, Un_cv khinchin_a l.
Proof. apply (steps_exists khinchin_a khinchin_d 6 99 true khinchin_l khinchin_ql khinchin_u khinchin_qu); try reflexivity; try (unfold Z.le; discriminate); [apply khinchin_step|apply khinchin_enclosed]. Qed.
Lemma ln2_pos : 0 < ln 2.
Proof. rewrite <- ln_1. apply ln_increasing; lra. Qed.
(** Summation by parts. *)
Lemma khinchin_log n : khinchin_product (n + 2) = exp ((khinchin_a n - ln (INR (n + 2)) * kl (n + 3)) / ln 2).
Proof.
  pose proof ln2_pos as L2.
  assert (T : forall k, (0 < k)%nat -> Rpower (1 + 1 / (INR k * (INR k + 2))) (ln (INR k) / ln 2) = exp (ln (INR k) * (kl k - kl (k + 1)) / ln 2)).
  { intros k K. unfold Rpower. f_equal. rewrite !kl_eq by lia. apply lt_0_INR in K as P. rewrite INR_add1.
    replace (1 + 1 / (INR k * (INR k + 2))) with ((INR k + 1) / INR k * ((INR k + 1) / (INR k + 1 + 1))) by (field; repeat split; apply Rgt_not_eq; lra).
    rewrite ln_mult, !ln_quot by (try apply Rdiv_lt_0_compat; lra). field. lra. }
  induction n as [|n IH].
  - change (0 + 2)%nat with 2%nat. change (0 + 3)%nat with 3%nat. cbn [khinchin_product]. rewrite (T 1%nat), (T 2%nat) by lia. rewrite Rmult_1_l, <- exp_plus. f_equal. unfold khinchin_a. cbn [sum_f_R0 Nat.add].
    change (INR 1) with 1. rewrite ln_1. rewrite (kl_eq 1) by lia. change (INR 1) with 1. rewrite ln_1. replace (1 + 1) with 2 by ring. replace (INR 2) with 2 by reflexivity. field. lra.
  - replace (S n + 2)%nat with (S (n + 2)) by lia. cbn [khinchin_product]. rewrite IH, (T (S (n + 2))) by lia. rewrite <- exp_plus. f_equal. unfold khinchin_a. cbn [sum_f_R0].
    replace (S n + 1)%nat with (n + 2)%nat by lia. replace (S n + 2)%nat with (n + 3)%nat by lia. replace (S (n + 2)) with (n + 3)%nat by lia. replace (S n + 3)%nat with (n + 3 + 1)%nat by lia.
    rewrite (kl_eq (n + 2)) by lia. replace (INR (n + 2) + 1) with (INR (n + 3)) by (rewrite !plus_INR; simpl; ring). field. lra.
Qed.
Lemma khinchin_rest : Un_cv (fun n => ln (INR (n + 2)) * kl (n + 3)) 0.
Proof.
  assert (Sq : Un_cv (fun n => 2 / sqrt (INR (n + 2))) 0).
  { intros e P. destruct (unbounded ((2 / e) * (2 / e))) as [N HN]. exists N. intros n Hn. unfold R_dist. rewrite Rminus_0_r. assert (I : INR N <= INR (n + 2)) by (apply le_INR; lia). assert (D : 0 < 2 / e) by (apply Rdiv_lt_0_compat; lra).
    assert (Q : 2 / e < sqrt (INR (n + 2))). { rewrite <- (sqrt_square (2 / e)) by lra. apply sqrt_lt_1; nra. }
    rewrite Rabs_right; [|apply Rle_ge, Rlt_le, Rdiv_lt_0_compat; lra]. apply Rmult_lt_reg_r with (sqrt (INR (n + 2))); [lra|]. unfold Rdiv at 1. rewrite Rmult_assoc, Rinv_l, Rmult_1_r by lra.
    apply Rmult_lt_reg_r with (/ e); [apply Rinv_0_lt_compat; auto|]. replace (e * sqrt (INR (n + 2)) * / e) with (sqrt (INR (n + 2))) by (field; lra). exact Q. }
  apply cv_squeeze with (2 := Sq). intros n. rewrite Rminus_0_r. assert (I : 1 <= INR (n + 2)) by (change 1 with (INR 1); apply le_INR; lia).
  assert (J : INR (n + 3) = INR (n + 2) + 1) by (rewrite !plus_INR; simpl; ring). set (r := INR (n + 2)) in *. pose proof (sqrt_lt_R0 r ltac:(lra)) as R0. pose proof (sqrt_sqrt r ltac:(lra)) as RR.
  assert (L : 0 <= ln r) by (rewrite <- ln_1; apply ln_mono; lra).
  assert (LU : ln r <= 2 * sqrt r). { rewrite <- RR at 1. rewrite ln_mult by auto. pose proof (ln_le_minus1 (sqrt r) R0). lra. }
  assert (K : 0 <= kl (n + 3) <= 1 / r).
  { rewrite kl_eq, J by lia. rewrite <- ln_quot by lra. set (v := (r + 1 + 1) / (r + 1)). assert (E : v = 1 + 1 / (r + 1)) by (unfold v; field; lra). assert (Q : 0 < 1 / (r + 1)) by (apply Rdiv_lt_0_compat; lra).
    pose proof (ln_le_minus1 v ltac:(lra)). split; [rewrite <- ln_1; apply ln_mono; lra|]. assert (1 / (r + 1) <= 1 / r) by (unfold Rdiv; rewrite !Rmult_1_l; apply Rinv_le_contravar; lra). lra. }
  rewrite Rabs_right by (apply Rle_ge, Rmult_le_pos; lra). apply Rle_trans with (2 * sqrt r * (1 / r)); [apply Rmult_le_compat; lra|]. apply Req_le. rewrite <- RR at 2. field. lra.
Qed.
Lemma khinchin_same l : Un_cv khinchin_a l -> is_khinchin (exp (l / ln 2)).
Proof.
  intros H. apply (cv_shift khinchin_product 2). apply cv_ext with (fun n => exp ((khinchin_a n - ln (INR (n + 2)) * kl (n + 3)) / ln 2)); [intros n; rewrite <- khinchin_log; f_equal; lia|].
  apply cv_exp. replace (l / ln 2) with ((l - 0) * / ln 2) by (unfold Rdiv; ring). apply (CV_mult (fun n => khinchin_a n - ln (INR (n + 2)) * kl (n + 3)) (fun _ => / ln 2)); [apply CV_minus; [auto|apply khinchin_rest]|apply cv_const].
Qed.
Lemma khinchin_exists : exists x, is_khinchin x.
Proof. destruct khinchin_exists_log as [l H]. exists (exp (l / ln 2)). apply khinchin_same, H. Qed.
Fixpoint khinchin_dn (n : nat) : Z := let t := let x := (2 * Z.of_nat n + 3)%Z in mul_dn (lnr_dn x) (lnr_dn (x + 2)) in match n with O => t | S k => (khinchin_dn k + t)%Z end.
Fixpoint khinchin_up (n : nat) : Z := let t := let x := (2 * Z.of_nat n + 3)%Z in mul_up (lnr_up x) (lnr_up (x + 2)) in match n with O => t | S k => (khinchin_up k + t)%Z end.
Lemma khinchin_term n : V (let x := (2 * Z.of_nat n + 3)%Z in mul_dn (lnr_dn x) (lnr_dn (x + 2))) <= kl (n + 1) * kl (n + 2) <= V (let x := (2 * Z.of_nat n + 3)%Z in mul_up (lnr_up x) (lnr_up (x + 2))).
Proof.
  cbn zeta. set (x := (2 * Z.of_nat n + 3)%Z). pose proof (lnr_ok x ltac:(lia)) as A. pose proof (lnr_ok (x + 2) ltac:(lia)) as B. fold (lnx (IZR x)) in A. fold (lnx (IZR (x + 2))) in B.
  assert (E1 : lnx (IZR x) = kl (n + 1)) by (unfold kl, x; f_equal; rewrite X_INR, INR_add1; ring).
  assert (E2 : lnx (IZR (x + 2)) = kl (n + 2)) by (unfold kl; f_equal; unfold x; rewrite plus_IZR, X_INR, plus_INR; simpl (INR 2); ring). rewrite E1 in A. rewrite E2 in B.
  assert (N : forall s, (2 <= s)%Z -> 0 <= V (lnr_dn s)).
  { intros s S. apply V_pos. unfold lnr_dn. assert (T : forall n k p acc, (0 <= p)%Z -> (0 <= acc)%Z -> (0 < k)%Z -> (0 <= fst (ser (fun p => p / (s * s)) 0 n k p acc))%Z).
    { induction n0 as [|m IH]; intros k p acc P Q K; cbn [ser]; auto. apply IH; [apply Z.div_pos; nia|pose proof (Z.div_pos p k P K); lia|lia]. }
    specialize (T depth 1%Z (quo 1 s) 0%Z (quo_nonneg 1 s ltac:(lia) ltac:(lia)) ltac:(lia) ltac:(lia)). lia. }
  pose proof (N x ltac:(lia)). pose proof (N (x + 2)%Z ltac:(lia)).
  split; [eapply Rle_trans; [apply V_mul_dn|]|eapply Rle_trans; [|apply V_mul_up]]; apply Rmult_le_compat; lra.
Qed.
Lemma khinchin_sum n : V (khinchin_dn n) <= khinchin_a n <= V (khinchin_up n).
Proof.
  unfold khinchin_a. induction n as [|n IH]; cbn [khinchin_dn khinchin_up sum_f_R0]; pose proof (khinchin_term 0) as T0; [exact T0|]. pose proof (khinchin_term (S n)) as T. cbn zeta in *. rewrite !V_add. lra.
Qed.
Lemma khinchin_inside l : Un_cv khinchin_a l -> inside l (khinchin_lo, khinchin_hi).
Proof.
  intros H. assert (B : khinchin_a 99 + G khinchin_l khinchin_ql true (IZR 203) <= l <= khinchin_a 99 + G khinchin_u khinchin_qu true (IZR 203)).
  { replace (IZR 203) with (IZR (2 * Z.of_nat 99 + 6) - 1) by (rewrite <- minus_IZR; reflexivity).
    apply (steps_bounds khinchin_a khinchin_d 6 99 true khinchin_l khinchin_ql khinchin_u khinchin_qu); try reflexivity; try (unfold Z.le; discriminate); [apply khinchin_step|apply khinchin_enclosed|exact H]. }
  pose proof (khinchin_sum 99) as S.
  pose proof (Gq_ok khinchin_l khinchin_ql true 203 ltac:(reflexivity) ltac:(reflexivity)) as L. pose proof (Gq_ok khinchin_u khinchin_qu true 203 ltac:(reflexivity) ltac:(reflexivity)) as U.
  unfold inside. cbn [fst snd]. split.
  - apply Rle_trans with (V (khinchin_dn 99 + Gq khinchin_l khinchin_ql true 203)); [zle|]. rewrite V_add. lra.
  - apply Rle_trans with (V (khinchin_up 99 + (Gq khinchin_u khinchin_qu true 203 + 1))); [|zle]. rewrite (V_add (khinchin_up 99)). lra.
Qed.
Lemma khinchin_log_limit x : is_khinchin x -> exists l, Un_cv khinchin_a l /\ x = exp (l / ln 2).
Proof. intros H. destruct khinchin_exists_log as [l Hl]. exists l. split; auto. apply (UL_sequence _ _ _ H (khinchin_same l Hl)). Qed.
