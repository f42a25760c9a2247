From Coq Require Import Reals Lra Psatz.
From Verif Require Import RealBase RealBaseProofs Cplx.
Local Open Scope R_scope.

Lemma C_eq (a b : C) : Re a = Re b -> Im a = Im b -> a = b.
Proof. destruct a, b; simpl; intros; subst; reflexivity. Qed.
Lemma C_neq0 (a : C) : a <> C0 -> 0 < Cnorm2 a.
Proof.
  intros H. unfold Cnorm2. destruct (Req_dec (Re a) 0) as [E|E].
  - destruct (Req_dec (Im a) 0) as [E'|E']; [exfalso; apply H; apply C_eq; auto|nra].
  - nra.
Qed.
Lemma Cnorm2_nonneg a : 0 <= Cnorm2 a.
Proof. unfold Cnorm2; nra. Qed.
Lemma Cnorm2_0 a : Cnorm2 a = 0 -> a = C0.
Proof. unfold Cnorm2; intros H. apply C_eq; simpl; nra. Qed.

Ltac Csolve := intros; repeat match goal with z : C |- _ => destruct z as [? ?] end;
  apply C_eq; cbv [Re Im C0 C1 Ci Cadd Copp Csub Cmul Cconj Cscal RtoC Cexp Cpolar fst snd]; try ring; try lra.

Lemma C_ring_theory : ring_theory C0 C1 Cadd Cmul Csub Copp eq.
Proof. constructor; Csolve. Qed.
Lemma C_field_theory : field_theory C0 C1 Cadd Cmul Csub Copp Cdiv Cinv eq.
Proof.
  constructor; [apply C_ring_theory| | |].
  - intros E. apply (f_equal Re) in E. simpl in E. lra.
  - reflexivity.
  - intros p Hp. pose proof (C_neq0 p Hp) as HN. unfold Cinv. apply C_eq; simpl; unfold Re, Im in *; field_simplify; try lra; unfold Cnorm2, Re, Im in *; field; lra.
Qed.
Add Field C_field : C_field_theory.

Lemma Cnorm2_mul a b : Cnorm2 (Cmul a b) = Cnorm2 a * Cnorm2 b.
Proof. unfold Cnorm2, Cmul, Re, Im; simpl; ring. Qed.
Lemma Cmod_nonneg a : 0 <= Cmod a.
Proof. apply sqrt_pos. Qed.
Lemma Cmod_mul a b : Cmod (Cmul a b) = Cmod a * Cmod b.
Proof. unfold Cmod. rewrite Cnorm2_mul. apply sqrt_mult; apply Cnorm2_nonneg. Qed.
Lemma Cmod_0 : Cmod C0 = 0.
Proof. unfold Cmod, Cnorm2; simpl. rewrite Rmult_0_l, Rplus_0_l. apply sqrt_0. Qed.
Lemma Cmod_1 : Cmod C1 = 1.
Proof. unfold Cmod, Cnorm2; simpl. rewrite Rmult_1_l, Rmult_0_l, Rplus_0_r. apply sqrt_1. Qed.
Lemma Cmod_RtoC x : Cmod (RtoC x) = Rabs x.
Proof. unfold Cmod, Cnorm2, RtoC; simpl. rewrite Rmult_0_l, Rplus_0_r. apply sqrt_Rsqr_abs. Qed.
Lemma Cmod_sqr a : Cmod a * Cmod a = Cnorm2 a.
Proof. unfold Cmod. apply sqrt_sqrt, Cnorm2_nonneg. Qed.
Lemma Cmod_eq0 a : Cmod a = 0 -> a = C0.
Proof. intros H. apply Cnorm2_0. rewrite <- Cmod_sqr, H; ring. Qed.
Lemma Cmod_pos a : a <> C0 -> 0 < Cmod a.
Proof. intros H. apply sqrt_lt_R0, C_neq0, H. Qed.
Lemma Cmod_opp a : Cmod (Copp a) = Cmod a.
Proof. unfold Cmod, Cnorm2, Copp, Re, Im; simpl. f_equal; ring. Qed.
Lemma Cmod_conj a : Cmod (Cconj a) = Cmod a.
Proof. unfold Cmod, Cnorm2, Cconj, Re, Im; simpl. f_equal; ring. Qed.
Lemma Cmod_exp t : Cmod (Cexp t) = 1.
Proof. unfold Cmod, Cnorm2, Cexp; simpl. pose proof (sin2_cos2 t) as H. unfold Rsqr in H. rewrite Rplus_comm, H. apply sqrt_1. Qed.
Lemma Cnorm2_exp t : Cnorm2 (Cexp t) = 1.
Proof. rewrite <- Cmod_sqr, Cmod_exp; ring. Qed.
Lemma Cmod_triang a b : Cmod (Cadd a b) <= Cmod a + Cmod b.
Proof.
  apply Rsqr_incr_0_var; [|pose proof (Cmod_nonneg a); pose proof (Cmod_nonneg b); lra].
  unfold Rsqr. replace ((Cmod a + Cmod b) * (Cmod a + Cmod b)) with (Cmod a * Cmod a + Cmod b * Cmod b + 2 * (Cmod a * Cmod b)) by ring.
  rewrite !Cmod_sqr, <- Cmod_mul.
  assert (H : Re a * Re b + Im a * Im b <= Cmod (Cmul a b)).
  { unfold Cmod. destruct (Rle_dec (Re a * Re b + Im a * Im b) 0) as [L|L].
    - eapply Rle_trans; [exact L|apply sqrt_pos].
    - rewrite <- (sqrt_square (Re a * Re b + Im a * Im b)) by lra.
      apply sqrt_le_1_alt. rewrite Cnorm2_mul. unfold Cnorm2.
      pose proof (Rle_0_sqr (Re a * Im b - Im a * Re b)) as Q; unfold Rsqr in Q. nra. }
  unfold Cnorm2, Cadd, Re, Im in *; simpl in *. nra.
Qed.
Lemma Rabs_Re_le a : Rabs (Re a) <= Cmod a.
Proof.
  unfold Cmod. rewrite <- sqrt_Rsqr_abs. apply sqrt_le_1_alt. unfold Cnorm2, Rsqr. nra.
Qed.
Lemma Rabs_Im_le a : Rabs (Im a) <= Cmod a.
Proof.
  unfold Cmod. rewrite <- sqrt_Rsqr_abs. apply sqrt_le_1_alt. unfold Cnorm2, Rsqr. nra.
Qed.
Lemma Cmod_lt_1 a : Cmod a < 1 <-> Cnorm2 a < 1.
Proof.
  unfold Cmod. split; intros H.
  - rewrite <- sqrt_1 in H. apply sqrt_lt_0_alt in H. exact H.
  - rewrite <- sqrt_1. apply sqrt_lt_1_alt. split; [apply Cnorm2_nonneg|exact H].
Qed.
Lemma Cmod_inv a : a <> C0 -> Cmod (Cinv a) = / Cmod a.
Proof.
  intros H. pose proof (Cmod_pos a H) as Hp.
  apply (Rmult_eq_reg_l (Cmod a)); [|lra]. rewrite Rinv_r by lra.
  rewrite <- Cmod_mul. replace (Cmul a (Cinv a)) with C1; [apply Cmod_1|]. field. exact H.
Qed.
Lemma Cmod_div a b : b <> C0 -> Cmod (Cdiv a b) = Cmod a / Cmod b.
Proof. intros H. unfold Cdiv. rewrite Cmod_mul, Cmod_inv by auto. reflexivity. Qed.
Lemma Cmul_eq0 a b : Cmul a b = C0 -> a = C0 \/ b = C0.
Proof.
  intros H. destruct (Req_dec (Cmod a) 0) as [E|E]; [left; apply Cmod_eq0; auto|].
  right. apply Cmod_eq0. apply (Rmult_eq_reg_l (Cmod a)); [|auto]. rewrite <- Cmod_mul, H, Cmod_0; ring.
Qed.
Lemma Cmul_neq0 a b : a <> C0 -> b <> C0 -> Cmul a b <> C0.
Proof. intros Ha Hb H. destruct (Cmul_eq0 a b H); auto. Qed.
Lemma C1_neq0 : C1 <> C0.
Proof. intros E. apply (f_equal Re) in E. simpl in E. lra. Qed.
Lemma C_dec (a b : C) : {a = b} + {a <> b}.
Proof.
  destruct a as [x y], b as [u v]. destruct (Req_EM_T x u) as [->|E]; [|right; congruence].
  destruct (Req_EM_T y v) as [->|E]; [left; reflexivity|right; congruence].
Qed.

Lemma Cexp_add s t : Cexp (s + t) = Cmul (Cexp s) (Cexp t).
Proof. unfold Cexp, Cmul, Re, Im; simpl. rewrite cos_plus, sin_plus. f_equal; ring. Qed.
Lemma Cexp_0 : Cexp 0 = C1.
Proof. unfold Cexp. rewrite cos_0, sin_0; reflexivity. Qed.
Lemma Cexp_conj t : Cconj (Cexp t) = Cexp (- t).
Proof. unfold Cexp, Cconj; simpl. rewrite cos_neg, sin_neg; reflexivity. Qed.
Lemma Cexp_neq0 t : Cexp t <> C0.
Proof. intros E. pose proof (Cmod_exp t) as H. rewrite E, Cmod_0 in H. lra. Qed.
Lemma Cexp_pow t n : Cpow (Cexp t) n = Cexp (INR n * t).
Proof.
  induction n as [|n IH]; [simpl; rewrite Rmult_0_l, Cexp_0; reflexivity|].
  rewrite S_INR. cbn [Cpow]. rewrite IH, <- Cexp_add. f_equal; ring.
Qed.
Lemma Cexp_2PI_n n : Cexp (2 * INR n * PI) = C1.
Proof.
  unfold Cexp, C1. f_equal.
  - replace (2 * INR n * PI) with (0 + 2 * INR n * PI) by ring. rewrite cos_period. apply cos_0.
  - replace (2 * INR n * PI) with (0 + 2 * INR n * PI) by ring. rewrite sin_period. apply sin_0.
Qed.

Lemma csumf_ext f g n : (forall i, (i < n)%nat -> f i = g i) -> csumf f n = csumf g n.
Proof. induction n as [|n IH]; simpl; intros H; [reflexivity|]. rewrite IH, H by (intros; try apply H; lia). reflexivity. Qed.
Lemma csumf_plus f g n : csumf (fun i => Cadd (f i) (g i)) n = Cadd (csumf f n) (csumf g n).
Proof. induction n as [|n IH]; simpl; [Csolve|]. rewrite IH. ring. Qed.
Lemma csumf_scal c f n : csumf (fun i => Cmul c (f i)) n = Cmul c (csumf f n).
Proof. induction n as [|n IH]; simpl; [ring|]. rewrite IH. ring. Qed.
Lemma csumf_scal_r c f n : csumf (fun i => Cmul (f i) c) n = Cmul (csumf f n) c.
Proof. induction n as [|n IH]; simpl; [ring|]. rewrite IH. ring. Qed.
Lemma csumf_zero n : csumf (fun _ => C0) n = C0.
Proof. induction n as [|n IH]; simpl; [reflexivity|]. rewrite IH; ring. Qed.
Lemma csumf_const c n : csumf (fun _ => c) n = Cmul (RtoC (INR n)) c.
Proof. induction n as [|n IH]; [simpl; Csolve|]. rewrite S_INR. cbn [csumf]. rewrite IH. Csolve. Qed.
Lemma csumf_swap (f : nat -> nat -> C) n m :
  csumf (fun i => csumf (f i) m) n = csumf (fun j => csumf (fun i => f i j) n) m.
Proof.
  induction n as [|n IH]; simpl; [rewrite csumf_zero; reflexivity|].
  rewrite IH, <- csumf_plus. reflexivity.
Qed.
Lemma csumf_single f n k : (k < n)%nat -> (forall i, (i < n)%nat -> i <> k -> f i = C0) -> csumf f n = f k.
Proof.
  intros Hk H. induction n as [|n IH]; [lia|]. simpl.
  destruct (Nat.eq_dec k n) as [->|Hne].
  - rewrite (csumf_ext f (fun _ => C0)) by (intros i Hi; apply H; lia). rewrite csumf_zero; ring.
  - rewrite IH by (try lia; intros; apply H; lia). rewrite (H n) by lia. ring.
Qed.
Lemma csumf_S_l f n : csumf f (S n) = Cadd (f O) (csumf (fun i => f (S i)) n).
Proof. induction n as [|n IH]; [simpl; ring|]. cbn [csumf] in *. rewrite IH. ring. Qed.
Lemma csumf_app f n m : csumf f (n + m) = Cadd (csumf f n) (csumf (fun i => f (n + i)%nat) m).
Proof.
  induction m as [|m IH]; simpl; [rewrite Nat.add_0_r; ring|].
  rewrite Nat.add_succ_r; simpl. rewrite IH; ring.
Qed.
Lemma Re_csumf f n : Re (csumf f n) = sumf (fun i => Re (f i)) n.
Proof. induction n as [|n IH]; simpl; [reflexivity|]. rewrite <- IH. reflexivity. Qed.
Lemma Im_csumf f n : Im (csumf f n) = sumf (fun i => Im (f i)) n.
Proof. induction n as [|n IH]; simpl; [reflexivity|]. rewrite <- IH. reflexivity. Qed.
Lemma RtoC_sumf f n : RtoC (sumf f n) = csumf (fun i => RtoC (f i)) n.
Proof. induction n as [|n IH]; simpl; [reflexivity|]. rewrite <- IH. Csolve. Qed.
Lemma Cconj_csumf f n : Cconj (csumf f n) = csumf (fun i => Cconj (f i)) n.
Proof. induction n as [|n IH]; simpl; [Csolve|]. rewrite <- IH. Csolve. Qed.
Lemma Cconj_mul a b : Cconj (Cmul a b) = Cmul (Cconj a) (Cconj b).
Proof. Csolve. Qed.
Lemma Cconj_invol a : Cconj (Cconj a) = a.
Proof. Csolve. Qed.
Lemma RtoC_mul a b : RtoC (a * b) = Cmul (RtoC a) (RtoC b).
Proof. Csolve. Qed.
Lemma RtoC_add a b : RtoC (a + b) = Cadd (RtoC a) (RtoC b).
Proof. Csolve. Qed.
Lemma RtoC_neq0 x : x <> 0 -> RtoC x <> C0.
Proof. intros H E. apply (f_equal Re) in E. simpl in E. contradiction. Qed.
