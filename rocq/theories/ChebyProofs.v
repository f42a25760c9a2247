From Coq Require Import Psatz Lia List.
From Verif Require Import RealBase RealBaseProofs BaseProofs Cplx CplxProofs PolyProofs ChebySpec.
Import ListNotations.
Local Open Scope R_scope.

(** ** Chebyshev polynomials *)
Lemma cheb_0 x : cheb 0 x = 1. Proof. reflexivity. Qed.
Lemma cheb_1 x : cheb 1 x = x. Proof. reflexivity. Qed.
Lemma cheb_SS n x : cheb (S (S n)) x = 2 * x * cheb (S n) x - cheb n x.
Proof.
  unfold cheb. cbn [cheb_pair]. destruct (cheb_pair n x) as [a b]. reflexivity.
Qed.
Lemma cheb_ind2 (P : nat -> Prop) : P 0%nat -> P 1%nat -> (forall n, P n -> P (S n) -> P (S (S n))) -> forall n, P n.
Proof. intros H0 H1 HS n. assert (P n /\ P (S n)) by (induction n; [auto|destruct IHn; auto]). tauto. Qed.

Lemma cheb_cos n y : cheb n (cos y) = cos (INR n * y).
Proof.
  induction n using cheb_ind2.
  - rewrite cheb_0. cbn [INR]. rewrite Rmult_0_l, cos_0. reflexivity.
  - rewrite cheb_1. cbn [INR]. rewrite Rmult_1_l. reflexivity.
  - rewrite cheb_SS, IHn, IHn0. rewrite !S_INR. replace ((INR n + 1 + 1) * y) with ((INR n + 1) * y + y) by ring.
    replace (INR n * y) with ((INR n + 1) * y - y) by ring. rewrite cos_plus, cos_minus. ring.
Qed.
Lemma cosh_plus a b : cosh (a + b) = cosh a * cosh b + sinh a * sinh b.
Proof. unfold cosh, sinh. replace (- (a + b)) with (- a + - b) by ring. rewrite !exp_plus. field. Qed.
Lemma sinh_plus a b : sinh (a + b) = sinh a * cosh b + cosh a * sinh b.
Proof. unfold cosh, sinh. replace (- (a + b)) with (- a + - b) by ring. rewrite !exp_plus. field. Qed.
Lemma cosh_neg a : cosh (- a) = cosh a. Proof. unfold cosh. rewrite Ropp_involutive. field. Qed.
Lemma sinh_neg a : sinh (- a) = - sinh a. Proof. unfold sinh. rewrite Ropp_involutive. field. Qed.
Lemma cosh_minus a b : cosh (a - b) = cosh a * cosh b - sinh a * sinh b.
Proof. unfold Rminus. rewrite cosh_plus, cosh_neg, sinh_neg. ring. Qed.
Lemma cosh2 a : cosh a * cosh a = 1 + sinh a * sinh a.
Proof.
  unfold cosh, sinh. assert (exp a * exp (- a) = 1) by (rewrite <- exp_plus, Rplus_opp_r; apply exp_0).
  set (x := exp a) in *. set (y := exp (- a)) in *. clearbody x y. lra.
Qed.
Lemma cosh_pos a : 0 < cosh a.
Proof. unfold cosh. pose proof (exp_pos a). pose proof (exp_pos (- a)). lra. Qed.
Lemma cheb_cosh n y : cheb n (cosh y) = cosh (INR n * y).
Proof.
  induction n using cheb_ind2.
  - rewrite cheb_0. cbn [INR]. rewrite Rmult_0_l, cosh_0. reflexivity.
  - rewrite cheb_1. cbn [INR]. rewrite Rmult_1_l. reflexivity.
  - rewrite cheb_SS, IHn, IHn0. rewrite !S_INR. replace ((INR n + 1 + 1) * y) with ((INR n + 1) * y + y) by ring.
    replace (INR n * y) with ((INR n + 1) * y - y) by ring. rewrite cosh_plus, cosh_minus. ring.
Qed.
Lemma cheb_opp n x : cheb n (- x) = (-1) ^ n * cheb n x.
Proof.
  induction n using cheb_ind2.
  - rewrite !cheb_0. simpl. ring.
  - rewrite !cheb_1. simpl. ring.
  - rewrite !cheb_SS, IHn, IHn0. simpl. ring.
Qed.
Lemma m1_sq n : (-1) ^ n * (-1) ^ n = 1.
Proof. rewrite <- Rpow_mult_distr. replace (-1 * -1) with 1 by ring. apply pow1. Qed.
Lemma cheb_opp_sq n x : cheb n (- x) * cheb n (- x) = cheb n x * cheb n x.
Proof. rewrite cheb_opp. transitivity ((-1) ^ n * (-1) ^ n * (cheb n x * cheb n x)); [ring|]. rewrite m1_sq. ring. Qed.

Lemma cos_param x : -1 <= x <= 1 -> exists y, cos y = x.
Proof. intros Hx. exists (acos x). apply cos_acos. exact Hx. Qed.
Lemma cosh_param x : 1 <= x -> exists y, cosh y = x.
Proof.
  intros Hx. exists (arcsinh (sqrt (x * x - 1))).
  pose proof (cosh2 (arcsinh (sqrt (x * x - 1)))) as E. rewrite sinh_arcsinh, sqrt_sqrt in E by nra.
  pose proof (cosh_pos (arcsinh (sqrt (x * x - 1)))). nra.
Qed.

(** Inside [-1,1] bounded by one, outside strictly above one and increasing. *)
Lemma cheb_in n x : -1 <= x <= 1 -> cheb n x * cheb n x <= 1.
Proof.
  intros Hx. destruct (cos_param x Hx) as [y <-]. rewrite cheb_cos. pose proof (sin2_cos2 (INR n * y)) as E. unfold Rsqr in E.
  pose proof (Rle_0_sqr (sin (INR n * y))) as Q. unfold Rsqr in Q. lra.
Qed.
Lemma cheb_at_1 n : cheb n 1 = 1.
Proof. rewrite <- cos_0. rewrite cheb_cos, Rmult_0_r. rewrite cos_0. reflexivity. Qed.
Lemma cheb_ge_1 n x y : 1 <= x -> x <= y -> 1 <= cheb n x <= cheb n y /\ cheb n x <= cheb (S n) x.
Proof.
  intros Hx Hy. assert (X : forall n, 1 <= cheb n x /\ cheb n x <= cheb (S n) x /\ 0 <= cheb n y - cheb n x <= cheb (S n) y - cheb (S n) x).
  { induction n0.
    - rewrite !cheb_0, !cheb_1. lra.
    - rewrite !cheb_SS. destruct IHn0 as [A [B [P Q]]].
      set (a := cheb n0 x) in *. set (b := cheb (S n0) x) in *. set (c := cheb n0 y) in *. set (d := cheb (S n0) y) in *.
      clearbody a b c d. assert (b * 1 <= b * x) by (apply Rmult_le_compat_l; lra).
      assert ((d - b) * 1 <= (d - b) * y) by (apply Rmult_le_compat_l; lra).
      assert (0 <= b * (y - x)) by (apply Rmult_le_pos; lra).
      repeat split; nra. }
  destruct (X n) as [A [B [P Q]]]. lra.
Qed.
Lemma cheb_strict n x y : (0 < n)%nat -> 1 <= x -> x < y -> cheb n x < cheb n y.
Proof.
  intros Hn Hx Hy. destruct n; [lia|]. clear Hn.
  assert (X : forall n, 0 <= cheb n y - cheb n x /\ cheb n y - cheb n x <= cheb (S n) y - cheb (S n) x /\ 0 < cheb (S n) y - cheb (S n) x).
  { induction n0.
    - rewrite !cheb_0, !cheb_1. lra.
    - destruct IHn0 as [A [B P]]. destruct (cheb_ge_1 (S n0) x x Hx (Rle_refl x)) as [[Q _] _]. rewrite !cheb_SS.
      set (a := cheb n0 x) in *. set (b := cheb (S n0) x) in *. set (c := cheb n0 y) in *. set (d := cheb (S n0) y) in *.
      clearbody a b c d. assert ((d - b) * 1 <= (d - b) * y) by (apply Rmult_le_compat_l; lra).
      assert (0 < b * (y - x)) by (apply Rmult_lt_0_compat; lra). nra. }
  destruct (X n) as [_ [_ P]]. lra.
Qed.
Lemma cheb_at_0 n : cheb n 0 * cheb n 0 = if Nat.odd n then 0 else 1.
Proof.
  assert (X : forall m, cheb (2 * m) 0 = (-1) ^ m /\ cheb (S (2 * m)) 0 = 0).
  { induction m; [cbn [Nat.mul]; rewrite cheb_0, cheb_1; simpl; lra|].
    replace (2 * S m)%nat with (S (S (2 * m))) by lia. rewrite (cheb_SS (S (2 * m))), (cheb_SS (2 * m)).
    destruct IHm as [-> ->]. simpl. split; ring. }
  destruct (Nat.odd n) eqn:E.
  - apply Nat.odd_spec in E. destruct E as [m ->]. replace (2 * m + 1)%nat with (S (2 * m)) by lia. rewrite (proj2 (X m)). ring.
  - assert (EV : Nat.even n = true) by (rewrite <- Nat.negb_odd, E; reflexivity). apply Nat.even_spec in EV. destruct EV as [m ->].
    rewrite (proj1 (X m)). apply m1_sq.
Qed.

(** ** The product over half of the odd multiples of pi/2n *)
Lemma cprod_seq_rev f n : cprod (map f (seq 0 n)) = cprod (map (fun i => f (n - 1 - i)%nat) (seq 0 n)).
Proof.
  revert f. induction n; intros f; auto.
  rewrite seq_S at 1. rewrite map_app, cprod_app. cbn [map cprod].
  rewrite (IHn f). cbn [seq map cprod]. rewrite <- seq_shift, map_map.
  replace (S n - 1 - 0)%nat with (0 + n)%nat by lia.
  assert (E : cprod (map (fun i => f (n - 1 - i)%nat) (seq 0 n)) = cprod (map (fun x => f (S n - 1 - S x)%nat) (seq 0 n))).
  { f_equal. apply map_ext. intros i. f_equal. lia. }
  rewrite E. ring.
Qed.
Lemma cprod_mult f g l : cprod (map (fun i : nat => Cmul (f i) (g i)) l) = Cmul (cprod (map f l)) (cprod (map g l)).
Proof. induction l; simpl; [ring|]. rewrite IHl. ring. Qed.

Lemma thetak_mirror n k : (0 < n)%nat -> (k < 2 * n)%nat -> thetak n (2 * n - 1 - k) = - thetak n k + 2 * PI.
Proof.
  intros Hn Hk. assert (HN : 0 < INR (2 * n)) by (apply lt_0_INR; lia).
  unfold thetak. rewrite !minus_INR by lia. simpl (INR 1). field. lra.
Qed.
Lemma thetak_flip n k : (0 < n)%nat -> (k < n)%nat -> thetak n (n - 1 - k) = PI - thetak n k.
Proof.
  intros Hn Hk. assert (HN : 0 < INR n) by (apply lt_0_INR; lia).
  unfold thetak. rewrite !minus_INR by lia. rewrite mult_INR. simpl (INR 1). simpl (INR 2). field. lra.
Qed.
Lemma Cexp_add_2PI t : Cexp (t + 2 * PI) = Cexp t.
Proof. unfold Cexp. rewrite cos_plus, sin_plus, cos_2PI, sin_2PI. apply C_eq; simpl; ring. Qed.

Lemma half_product n z : (0 < n)%nat ->
  cprod (map (fun k => (z - Cexp (thetak n k)) * (z - Cexp (- thetak n k)))%C (seq 0 n)) = (Cpow z (2 * n) + C1)%C.
Proof.
  intros Hn. rewrite xn_plus_1 by lia.
  assert (ES : seq 0 (2 * n) = seq 0 n ++ seq n n) by (replace (2 * n)%nat with (n + n)%nat by lia; apply seq_app).
  rewrite ES, map_app, cprod_app, cprod_mult. f_equal.
  rewrite cprod_seq_rev.
  replace (seq n n) with (map (fun i => (n + i)%nat) (seq 0 n)).
  2:{ clear. generalize n at 1 3. intros m. revert m. induction n as [|p IH]; intros m; auto. cbn [seq map]. f_equal; [lia|].
      rewrite <- seq_shift, map_map. rewrite <- (IH (S m)). apply map_ext. intros; lia. }
  rewrite map_map. f_equal. apply map_ext_in. intros k Hk. apply in_seq in Hk. f_equal.
  rewrite <- (Cexp_add_2PI (- thetak n (n - 1 - k))), <- thetak_mirror by lia.
  unfold thetak. replace (2 * n - 1 - (n - 1 - k))%nat with (n + k)%nat by lia. reflexivity.
Qed.




Lemma Cpow_mul_distr a b n : Cpow (Cmul a b) n = Cmul (Cpow a n) (Cpow b n).
Proof. induction n; simpl; [ring|]. rewrite IHn. ring. Qed.

(** cosh s + cos t as half of a squared distance *)
Lemma hyp_product n s : (0 < n)%nat -> prodf (fun k => cosh s + cos (thetak n k)) n = 2 * cosh (INR n * s) / 2 ^ n.
Proof.
  intros Hn. pose proof (exp_pos s) as EP.
  assert (M : exp s * exp (- s) = 1) by (rewrite <- exp_plus, Rplus_opp_r; apply exp_0).
  assert (E1 : forall k, RtoC (2 * exp s * (cosh s + cos (thetak n k))) =
     ((RtoC (- exp s) - Cexp (thetak n k)) * (RtoC (- exp s) - Cexp (- thetak n k)))%C).
  { intros k. unfold Cexp, cosh. rewrite cos_neg, sin_neg. pose proof (sin2_cos2 (thetak n k)) as S. unfold Rsqr in S.
    apply C_eq; simpl; [|ring]. replace (2 * exp s * ((exp s + exp (- s)) / 2 + cos (thetak n k))) with (exp s * exp s + exp s * exp (- s) + 2 * exp s * cos (thetak n k)) by field.
    rewrite M. lra. }
  assert (E2 : forall m, RtoC (prodf (fun k => 2 * exp s * (cosh s + cos (thetak n k))) m) =
     cprod (map (fun k => (RtoC (- exp s) - Cexp (thetak n k)) * (RtoC (- exp s) - Cexp (- thetak n k)))%C (seq 0 m))).
  { induction m; [reflexivity|]. rewrite seq_S, map_app, cprod_app. cbn [prodf map cprod]. rewrite <- IHm, Nat.add_0_l, <- E1.
    apply C_eq; simpl; ring. }
  specialize (E2 n). rewrite half_product, Cpow_RtoC in E2 by auto. apply (f_equal Re) in E2. simpl Re in E2.
  rewrite prodf_mult in E2.
  assert (E3 : forall a m, prodf (fun _ => a) m = a ^ m) by (intros a; induction m; simpl; auto; rewrite IHm; ring).
  rewrite E3 in E2. rewrite Rpow_mult_distr in E2.
  assert (E4 : exp s ^ n = exp (INR n * s)).
  { clear. induction n; [simpl; rewrite Rmult_0_l, exp_0; reflexivity|]. cbn [pow]. rewrite IHn, S_INR, <- exp_plus. f_equal. ring. }
  assert (E5 : (- exp s) ^ (n + (n + 0)) = exp (INR n * s) * exp (INR n * s)).
  { replace (n + (n + 0))%nat with (2 * n)%nat by lia. rewrite pow_mult. replace ((- exp s) ^ 2) with (exp s * exp s) by ring.
    rewrite Rpow_mult_distr, E4. reflexivity. }
  rewrite E5, E4 in E2. pose proof (exp_pos (INR n * s)) as EN.
  assert (M2 : exp (INR n * s) * exp (- (INR n * s)) = 1) by (rewrite <- exp_plus, Rplus_opp_r; apply exp_0).
  assert (P2 : 0 < 2 ^ n) by (apply pow_lt; lra).
  unfold cosh at 2. set (X := exp (INR n * s)) in *. set (Y := exp (- (INR n * s))) in *. set (W := prodf _ _) in *. clearbody X Y W.
  apply (Rmult_eq_reg_l (2 ^ n * X)); [|nra]. rewrite E2. field_simplify; [|lra]. rewrite <- (Rmult_comm Y X) || idtac. nra.
Qed.

Lemma trig_product n v y : (0 < n)%nat ->
  prodf (fun k => (cosh v + cos (y + thetak n k)) * (cosh v + cos (y - thetak n k))) n
    = 4 * (sinh (INR n * v) * sinh (INR n * v) + cos (INR n * y) * cos (INR n * y)) / 4 ^ n.
Proof.
  intros Hn. pose proof (exp_pos v) as EP.
  assert (M : exp v * exp (- v) = 1) by (rewrite <- exp_plus, Rplus_opp_r; apply exp_0).
  set (z := Cmul (RtoC (- exp v)) (Cexp (- y))).
  assert (E1 : forall t, 2 * exp v * (cosh v + cos (y + t)) = Cnorm2 (z - Cexp t)%C).
  { intros t. unfold z, Cexp, Cnorm2, cosh. rewrite cos_neg, sin_neg, cos_plus. pose proof (sin2_cos2 t) as S. pose proof (sin2_cos2 y) as S'. unfold Rsqr in *. simpl.
    replace (2 * exp v * ((exp v + exp (- v)) / 2 + (cos y * cos t - sin y * sin t)))
      with (exp v * exp v + exp v * exp (- v) + 2 * exp v * (cos y * cos t - sin y * sin t)) by field. rewrite M.
    transitivity (exp v * exp v * (sin y * sin y + cos y * cos y) + (sin t * sin t + cos t * cos t) + 2 * exp v * (cos y * cos t - sin y * sin t)); [rewrite S, S'; ring|ring]. }
  assert (E2 : prodf (fun k => (2 * exp v) * (2 * exp v) * ((cosh v + cos (y + thetak n k)) * (cosh v + cos (y - thetak n k)))) n = Cnorm2 (Cpow z (2 * n) + C1)%C).
  { rewrite <- half_product by auto. rewrite Cnorm2_cprod_seq. apply prodf_ext. intros k _. rewrite Cnorm2_mul, <- !E1.
    unfold Rminus. ring. }
  rewrite prodf_mult in E2.
  assert (E3 : forall a m, prodf (fun _ => a) m = a ^ m) by (intros a; induction m; simpl; auto; rewrite IHm; ring).
  rewrite E3 in E2.
  assert (E4 : exp v ^ n = exp (INR n * v)).
  { clear. induction n; [simpl; rewrite Rmult_0_l, exp_0; reflexivity|]. cbn [pow]. rewrite IHn, S_INR, <- exp_plus. f_equal. ring. }
  replace (2 * exp v * (2 * exp v)) with (4 * (exp v * exp v)) in E2 by ring.
  rewrite !Rpow_mult_distr, E4 in E2.
  assert (E5 : Cpow z (2 * n) = (RtoC (exp (INR n * v) * exp (INR n * v)) * Cexp (- (2 * INR n * y)))%C).
  { unfold z. rewrite Cpow_mul_distr, Cpow_RtoC, Cexp_pow. f_equal.
    - f_equal. rewrite pow_mult. replace ((- exp v) ^ 2) with (exp v * exp v) by ring. rewrite Rpow_mult_distr, E4. reflexivity.
    - f_equal. rewrite mult_INR. simpl (INR 2). ring. }
  rewrite E5 in E2. 
  assert (M2 : exp (INR n * v) * exp (- (INR n * v)) = 1) by (rewrite <- exp_plus, Rplus_opp_r; apply exp_0).
  pose proof (exp_pos (INR n * v)) as XP. assert (P4 : 0 < 4 ^ n) by (apply pow_lt; lra).
  unfold sinh, Cnorm2, Cexp in *. simpl in E2. rewrite cos_neg, sin_neg in E2.
  replace (2 * INR n * y) with (2 * (INR n * y)) in E2 by ring. rewrite cos_2a_cos, sin_2a in E2.
  pose proof (sin2_cos2 (INR n * y)) as S. unfold Rsqr in S.
  set (X := exp (INR n * v)) in *. set (Y := exp (- (INR n * v))) in *. set (W := prodf _ _) in *. set (c := cos (INR n * y)) in *. set (s := sin (INR n * y)) in *.
  clearbody X Y W c s.
  apply (Rmult_eq_reg_l (4 ^ n * (X * X))); [|assert (0 < X * X) by (apply Rmult_lt_0_compat; auto); assert (0 < 4 ^ n * (X * X)) by (apply Rmult_lt_0_compat; auto); lra]. rewrite E2. clear E2.
  transitivity (4 * ((X * X - X * Y) * (X * X - X * Y) / 4 + X * X * (c * c))); [|field; lra]. rewrite M2.
  assert (Q : s * s = 1 - c * c) by lra. 
  replace (X * X * - (2 * s * c) + 0 * (2 * c * c - 1) + 0) with (- (2 * X * X * s * c)) by ring.
  replace (- (2 * X * X * s * c) * - (2 * X * X * s * c)) with (4 * (X * X) * (X * X) * c * c * (s * s)) by ring || idtac.
  match goal with |- ?l = ?r => replace l with ((X * X * (2 * c * c - 1) + 1) * (X * X * (2 * c * c - 1) + 1) + 4 * (X * X) * (X * X) * c * c * (s * s)) by ring end.
  rewrite Q. field.
Qed.

(** The common closed form. *)
Definition chfac (n : nat) (v x : R) (k : nat) : R :=
  x * x + 2 * x * cosh v * cos (thetak n k) + cosh v * cosh v - sin (thetak n k) * sin (thetak n k).

Lemma cheb_product n v x : (0 < n)%nat ->
  prodf (chfac n v x) n = 4 * (cheb n x * cheb n x + sinh (INR n * v) * sinh (INR n * v)) / 4 ^ n.
Proof.
  intros Hn.
  assert (P4 : 0 < 4 ^ n) by (apply pow_lt; lra).
  assert (Hbig : forall x, 1 <= x -> prodf (chfac n v x) n = 4 * (cheb n x * cheb n x + sinh (INR n * v) * sinh (INR n * v)) / 4 ^ n).
  { clear x. intros x Hx. destruct (cosh_param x Hx) as [y <-].
    rewrite (prodf_ext _ (fun k => (cosh (y + v) + cos (thetak n k)) * (cosh (y - v) + cos (thetak n k)))).
    - rewrite prodf_mult, !hyp_product by auto. rewrite cheb_cosh.
      replace (INR n * (y + v)) with (INR n * y + INR n * v) by ring. replace (INR n * (y - v)) with (INR n * y - INR n * v) by ring.
      rewrite cosh_plus, cosh_minus. pose proof (cosh2 (INR n * v)). pose proof (cosh2 (INR n * y)).
      assert (E4 : 4 ^ n = 2 ^ n * 2 ^ n) by (rewrite <- Rpow_mult_distr; f_equal; ring). rewrite E4.
      assert (P2 : 0 < 2 ^ n) by (apply pow_lt; lra).
      set (A := cosh (INR n * y)) in *. set (B := cosh (INR n * v)) in *. set (Y := sinh (INR n * y)) in *. set (Z := sinh (INR n * v)) in *.
      clearbody A B Y Z. apply (Rmult_eq_reg_r (2 ^ n * 2 ^ n)); [|nra]. field_simplify; [|lra|lra]. nra.
    - intros k _. unfold chfac. rewrite cosh_plus, cosh_minus. pose proof (sin2_cos2 (thetak n k)) as S. unfold Rsqr in S.
      pose proof (cosh2 y). pose proof (cosh2 v). 
      set (A := cosh y) in *. set (B := cosh v) in *. set (Y := sinh y) in *. set (Z := sinh v) in *. set (c := cos _) in *. set (s := sin _) in *.
      clearbody A B Y Z c s. assert (s * s = 1 - c * c) by lra. assert (Y * Y = A * A - 1) by lra. assert (Z * Z = B * B - 1) by lra.
      transitivity (A * A * (B * B) - Y * Y * (Z * Z) + 2 * A * B * c + c * c); [|ring]. 
      replace (s * s) with (1 - c * c) by lra. replace (Y * Y) with (A * A - 1) by lra. replace (Z * Z) with (B * B - 1) by lra. ring. }
  destruct (Rle_dec 1 x) as [H1|H1]; [apply Hbig; auto|].
  destruct (Rle_dec x (-1)) as [H2|H2].
  - assert (E : prodf (chfac n v x) n = prodf (chfac n v (- x)) n).
    { rewrite prodf_rev. apply prodf_ext. intros k Hk. unfold chfac. rewrite thetak_flip by lia.
      rewrite Rtrigo_facts.cos_pi_minus, Rtrigo_facts.sin_pi_minus. ring. }
    rewrite E, Hbig by lra. rewrite cheb_opp_sq. reflexivity.
  - destruct (cos_param x ltac:(lra)) as [y <-]. 
    rewrite (prodf_ext _ (fun k => (cosh v + cos (y + thetak n k)) * (cosh v + cos (y - thetak n k)))).
    + rewrite trig_product, cheb_cos by auto. field. lra.
    + intros k _. unfold chfac. rewrite cos_plus, cos_minus. pose proof (sin2_cos2 (thetak n k)) as S. pose proof (sin2_cos2 y) as S'. unfold Rsqr in *.
      set (A := cosh v) in *. set (a := cos y) in *. set (b := sin y) in *. set (c := cos (thetak n k)) in *. set (s := sin (thetak n k)) in *.
      clearbody A a b c s. assert (Q : s * s = 1 - c * c) by lra. assert (Q' : b * b = 1 - a * a) by lra.
      transitivity (A * A + 2 * A * a * c + a * a * (c * c) - b * b * (s * s)); [|ring]. rewrite Q, Q'. ring.
Qed.
