(** Property C111: the table of constants. *)
From Coq Require Import Reals Lra QArith Qreals.
From Verif Require Import ConstModel ConstSpec ConstProofs ConstSeries ConstLimits.
Local Open Scope R_scope.

(** Certificates: an expression for each constant.  [Given] stands for Euler's, Apery's and Catalan's constants
    and for the logarithms of Glaisher's and Khinchin's. *)
Definition certificate (c : constant_name) : expr :=
  match c with
  | half => (Num (1 # 2))
  | third => (Num (1 # 3))
  | twothirds => (Num (2 # 3))
  | two_thirds => (Num (2 # 3))
  | sixth => (Num (1 # 6))
  | three_quarters => (Num (3 # 4))
  | root_two => (Sqrt (Num (2 # 1)))
  | root_three => (Sqrt (Num (3 # 1)))
  | half_root_two => (Mul (Sqrt (Num (2 # 1))) (Num (1 # 2)))
  | ln_two => (Ln (Num (2 # 1)) 1)
  | ln_ln_two => (Opp (Ln (Inv (Ln (Num (2 # 1)) 1)) 0))
  | root_ln_four => (Sqrt (Ln (Num (4 # 1)) 2))
  | one_div_root_two => (Inv (Sqrt (Num (2 # 1))))
  | pi => Pi
  | half_pi => (Mul (Num (1 # 2)) Pi)
  | third_pi => (Mul (Num (1 # 3)) Pi)
  | sixth_pi => (Mul (Num (1 # 6)) Pi)
  | two_pi => (Mul (Num (2 # 1)) Pi)
  | two_thirds_pi => (Mul (Num (2 # 3)) Pi)
  | three_quarters_pi => (Mul (Num (3 # 4)) Pi)
  | four_thirds_pi => (Mul (Num (4 # 3)) Pi)
  | one_div_two_pi => (Inv (Mul (Num (2 # 1)) Pi))
  | one_div_root_two_pi => (Inv (Sqrt (Mul (Num (2 # 1)) Pi)))
  | root_pi => (Sqrt Pi)
  | root_half_pi => (Sqrt (Mul Pi (Num (1 # 2))))
  | root_two_pi => (Sqrt (Mul (Num (2 # 1)) Pi))
  | log_root_two_pi => (Ln (Sqrt (Mul (Num (2 # 1)) Pi)) 1)
  | one_div_root_pi => (Inv (Sqrt Pi))
  | root_one_div_pi => (Sqrt (Inv Pi))
  | pi_minus_three => (Add Pi (Opp (Num (3 # 1))))
  | four_minus_pi => (Add (Num (4 # 1)) (Opp Pi))
  | pi_pow_e => (Exp (Mul (Exp (Num (1 # 1))) (Ln Pi 1)))
  | pi_sqr => (Mul Pi Pi)
  | pi_sqr_div_six => (Mul (Mul Pi Pi) (Num (1 # 6)))
  | pi_cubed => (Mul (Mul Pi Pi) Pi)
  | cbrt_pi => (Exp (Mul (Num (1 # 3)) (Ln Pi 1)))
  | one_div_cbrt_pi => (Inv (Exp (Mul (Num (1 # 3)) (Ln Pi 1))))
  | e => (Exp (Num (1 # 1)))
  | exp_minus_half => (Inv (Exp (Num (1 # 2))))
  | e_pow_pi => (Exp Pi)
  | root_e => (Sqrt (Exp (Num (1 # 1))))
  | log10_e => (Inv (Ln (Num (10 # 1)) 3))
  | one_div_log10_e => (Ln (Num (10 # 1)) 3)
  | ln_ten => (Ln (Num (10 # 1)) 3)
  | degree => (Mul Pi (Num (1 # 180)))
  | radian => (Mul (Num (180 # 1)) (Inv Pi))
  | sin_one => SinOne
  | cos_one => CosOne
  | sinh_one => (Mul (Add (Exp (Num (1 # 1))) (Opp (Inv (Exp (Num (1 # 1)))))) (Num (1 # 2)))
  | cosh_one => (Mul (Add (Exp (Num (1 # 1))) (Inv (Exp (Num (1 # 1))))) (Num (1 # 2)))
  | phi => (Mul (Num (1 # 2)) (Add (Num (1 # 1)) (Sqrt (Num (5 # 1)))))
  | ln_phi => (Ln (Mul (Num (1 # 2)) (Add (Num (1 # 1)) (Sqrt (Num (5 # 1))))) 0)
  | one_div_ln_phi => (Inv (Ln (Mul (Num (1 # 2)) (Add (Num (1 # 1)) (Sqrt (Num (5 # 1))))) 0))
  | zeta_two => (Mul (Mul Pi Pi) (Num (1 # 6)))
  | rayleigh_skewness => (Mul (Mul (Mul (Num (2 # 1)) (Sqrt Pi)) (Add Pi (Opp (Num (3 # 1))))) (Inv (Mul (Add (Num (4 # 1)) (Opp Pi)) (Sqrt (Add (Num (4 # 1)) (Opp Pi))))))
  | rayleigh_kurtosis => (Add (Num (3 # 1)) (Mul (Add (Mul (Num (24 # 1)) Pi) (Opp (Add (Num (16 # 1)) (Mul (Num (6 # 1)) (Mul Pi Pi))))) (Inv (Mul (Add (Num (4 # 1)) (Opp Pi)) (Add (Num (4 # 1)) (Opp Pi))))))
  | rayleigh_kurtosis_excess => (Mul (Add (Mul (Num (24 # 1)) Pi) (Opp (Add (Num (16 # 1)) (Mul (Num (6 # 1)) (Mul Pi Pi))))) (Inv (Mul (Add (Num (4 # 1)) (Opp Pi)) (Add (Num (4 # 1)) (Opp Pi)))))
  | two_div_pi => (Mul (Num (2 # 1)) (Inv Pi))
  | root_two_div_pi => (Sqrt (Mul (Num (2 # 1)) (Inv Pi)))
  | euler => Given 0
  | one_div_euler => Inv (Given 0)
  | euler_sqr => Mul (Given 0) (Given 0)
  | zeta_three => Given 1
  | catalan => Given 2
  | glaisher => Exp (Given 3)
  | khinchin => Exp (Mul (Given 4) (Inv (Ln (Num (2 # 1)) 1)))
  | extreme_value_skewness => (Mul (Mul (Num (12 # 1)) (Sqrt (Num (6 # 1)))) (Mul (Given 1) (Inv (Mul (Mul Pi Pi) Pi))))
  end.
Lemma Q2R_frac a b : Q2R (a # b) = IZR a / IZR (Z.pos b).
Proof. reflexivity. Qed.
Lemma div1 x : x / 1 = x.
Proof. field. Qed.
Lemma inv1 x : / x = 1 / x.
Proof. unfold Rdiv. ring. Qed.
Lemma div_inv x y : x * / y = x / y.
Proof. reflexivity. Qed.
Lemma certificate_value env c x : meaning c = Some x -> value env (certificate c) = x.
Proof.
  destruct c; cbn [meaning certificate]; intros E; try discriminate E; injection E as <-; cbn [value]; rewrite ?Q2R_frac, ?div1; try reflexivity; try (unfold Rdiv; ring).
  - rewrite ln_Rinv; [ring|]. rewrite <- ln_1. apply ln_increasing; lra.
  - f_equal. unfold Rdiv. ring.
  - f_equal. apply inv1.
  - apply inv1.
  - symmetry. apply exp_Ropp.
  - unfold log10. rewrite ln_exp. apply inv1.
  - unfold log10. rewrite ln_exp. assert (0 < ln 10) by (rewrite <- ln_1; apply ln_increasing; lra). field. lra.
  - unfold sinh. rewrite exp_Ropp. unfold Rdiv. ring.
  - unfold cosh. rewrite exp_Ropp. unfold Rdiv. ring.
  - unfold golden. unfold Rdiv. ring.
  - f_equal. unfold golden. unfold Rdiv. ring.
  - rewrite inv1. do 2 f_equal. unfold golden. unfold Rdiv. ring.
  - pose proof PI_4. unfold Rdiv, Rminus. ring.
  - unfold Rdiv, Rminus. ring.
Qed.
(** The limits, and where they lie. *)
Definition limits (g z c a k : R) (n : nat) : R := match n with 0%nat => g | 1%nat => z | 2%nat => c | 3%nat => a | 4%nat => k | _ => 0 end.
Definition enclosures (n : nat) : itv :=
  match n with
  | 0%nat => (euler_lo, euler_hi) | 1%nat => (zeta_lo, zeta_hi) | 2%nat => (catalan_lo, catalan_hi)
  | 3%nat => (glaisher_lo, glaisher_hi) | 4%nat => (khinchin_lo, khinchin_hi) | _ => (0, 0)%Z
  end.
Lemma limits_inside g z c a k : is_euler g -> is_apery z -> is_catalan c -> Un_cv glaisher_a a -> Un_cv khinchin_a k ->
  forall n, inside (limits g z c a k n) (enclosures n).
Proof.
  intros. destruct n as [|[|[|[|[|n]]]]]; cbn [limits enclosures]; [apply euler_inside|apply zeta_inside|apply catalan_inside|apply glaisher_inside|apply khinchin_inside|unfold inside; cbn [fst snd]; rewrite V_0; lra]; auto.
Qed.
Lemma denoted c x : denotes c x -> exists g z k a l, is_euler g /\ is_apery z /\ is_catalan k /\ Un_cv glaisher_a a /\ Un_cv khinchin_a l /\ value (limits g z k a l) (certificate c) = x.
Proof.
  intros H. destruct euler_exists as [g G1]. destruct zeta_exists as [z Z1]. destruct catalan_exists as [k K1]. destruct glaisher_exists_log as [a A1]. destruct khinchin_exists_log as [l L1].
  destruct c; cbn [denotes] in H;
    try (exists g, z, k, a, l; do 5 (split; [assumption|]); apply certificate_value; exact H).
  - exists x, z, k, a, l. do 5 (split; [assumption|]). reflexivity.
  - destruct H as [h [H ->]]. exists h, z, k, a, l. do 5 (split; [assumption|]). apply inv1.
  - destruct H as [h [H ->]]. exists h, z, k, a, l. do 5 (split; [assumption|]). reflexivity.
  - exists g, x, k, a, l. do 5 (split; [assumption|]). reflexivity.
  - exists g, z, x, a, l. do 5 (split; [assumption|]). reflexivity.
  - destruct (glaisher_log x H) as [b [B ->]]. exists g, z, k, b, l. do 5 (split; [assumption|]). reflexivity.
  - destruct (khinchin_log_limit x H) as [b [B ->]]. exists g, z, k, a, b. do 5 (split; [assumption|]). cbn [certificate value limits]. rewrite Q2R_frac, div1. reflexivity.
  - destruct H as [h [H ->]]. exists g, h, k, a, l. do 5 (split; [assumption|]). cbn [certificate value limits]. rewrite !Q2R_frac, !div1. unfold Rdiv. ring.
Qed.
(** Every constant of the table agrees to 36 decimal digits with the number it is named after. *)
Theorem C111_constants (c : constant_name) (x : R) : denotes c x -> accurate (Q2R (literal c)) x.
Proof.
  intros H. destruct (denoted c x H) as [g [z [k [a [l [G1 [Z1 [K1 [A1 [L1 E]]]]]]]]]].
  apply (checked (limits g z k a l) enclosures (literal c) (certificate c)); [apply limits_inside; auto|exact E|].
  clear. destruct c; vm_compute; reflexivity.
Qed.
(** Every name means one number. *)
Theorem C111_defined (c : constant_name) : exists x, denotes c x /\ forall y, denotes c y -> y = x.
Proof.
  assert (U : forall P : R -> Prop, (exists x, P x) -> (forall x y, P x -> P y -> x = y) -> exists x, P x /\ forall y, P y -> y = x).
  { intros P [x X] Q. exists x. auto. }
  assert (UE : forall x y, is_euler x -> is_euler y -> x = y) by (intros x y; apply UL_sequence).
  assert (UZ : forall x y, is_apery x -> is_apery y -> x = y) by (intros x y; apply UL_sequence).
  destruct c; try (eexists; split; [reflexivity|]; intros y Y; injection Y as <-; reflexivity); apply U; cbn [denotes].
  - apply euler_exists.
  - apply UE.
  - destruct euler_exists as [g G1]. exists (1 / g), g. auto.
  - intros x y [g [G1 ->]] [h [H1 ->]]. rewrite (UE g h); auto.
  - destruct euler_exists as [g G1]. exists (g * g), g. auto.
  - intros x y [g [G1 ->]] [h [H1 ->]]. rewrite (UE g h); auto.
  - apply zeta_exists.
  - apply UZ.
  - apply catalan_exists.
  - intros x y. apply UL_sequence.
  - apply glaisher_exists.
  - intros x y. apply UL_sequence.
  - apply khinchin_exists.
  - intros x y. apply UL_sequence.
  - destruct zeta_exists as [g G1]. eexists. exists g. split; [exact G1|reflexivity].
  - intros x y [g [G1 ->]] [h [H1 ->]]. rewrite (UZ g h); auto.
Qed.
Print Assumptions C111_constants.
Print Assumptions C111_defined.
