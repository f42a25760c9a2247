(** Second-order sections in IEEE formats. *)
From Coq Require Import ZArith Reals List Bool Lia Lra Psatz.
From Flocq Require Import Core BinarySingleNaN.
From Verif Require Import Base FloatModel FloatSpec FloatProofs FloatProps FloatOrderProps.
From Verif Require BiquadModel BiquadProofs StabilityProofs Cplx CplxProofs.
Import ListNotations.
Local Open Scope R_scope.

Section Format.
Context (prec emax : Z) {Hprec : Prec_gt_0 prec} {Hmax : Prec_lt_emax prec emax}.
Notation fl := (binary_float prec emax).
Notation rnd := (round radix2 (FLT_exp (3 - emax - prec) prec) ZnearestE).
Notation val := (@B2R prec emax).
Notation u := (roundoff prec).
Notation t := (smallest prec emax).
Notation g := (1 + u).
Notation add := (fadd prec emax).
Notation sub := (fsub prec emax).
Notation mul := (fmul prec emax).

(** A rounded operation on values whose exact result is bounded. *)
Lemma t_pos : 0 < t. Proof. rewrite (smallest_tiny prec emax). apply tiny_pos. Qed.
Lemma mul_ok (c x : fl) K X : finite c -> finite x -> Rabs (val c) <= K -> Rabs (val x) <= X -> g * (K * X) + t / 2 < bpow radix2 emax ->
  finite (mul c x) /\ Rabs (val (mul c x) - val c * val x) <= u * (K * X) + t / 2 /\ Rabs (val (mul c x)) <= g * (K * X) + t / 2.
Proof.
  intros Fc Fx Hc Hx B. pose proof (roundoff_pos prec) as U. assert (P : Rabs (val c * val x) <= K * X) by (rewrite Rabs_mult; apply Rmult_le_compat; auto using Rabs_pos).
  pose proof (rnd_err prec emax (val c * val x)) as D. rewrite <- (roundoff_u prec), <- (smallest_tiny prec emax) in D.
  assert (E : Rabs (rnd (val c * val x) - val c * val x) <= u * (K * X) + t / 2) by (eapply Rle_trans; [exact D|]; apply Rplus_le_compat_r; apply Rmult_le_compat_l; lra).
  assert (M : Rabs (rnd (val c * val x)) <= g * (K * X) + t / 2).
  { replace (rnd (val c * val x)) with ((rnd (val c * val x) - val c * val x) + val c * val x) by ring. eapply Rle_trans; [apply Rabs_triang|]. lra. }
  destruct (mul_cases prec emax c x Fc Fx) as [[_ [V F]]|[O _]]; [rewrite V; auto|lra].
Qed.
Lemma add_ok (x y : fl) M : finite x -> finite y -> Rabs (val x + val y) <= M -> g * M < bpow radix2 emax ->
  finite (add x y) /\ Rabs (val (add x y) - (val x + val y)) <= u * M /\ Rabs (val (add x y)) <= g * M.
Proof.
  intros Fx Fy H B. pose proof (roundoff_pos prec) as U.
  pose proof (add_err prec emax (val x) (val y) (fmt_val prec emax _) (fmt_val prec emax _)) as D. rewrite <- (roundoff_u prec) in D.
  assert (E : Rabs (rnd (val x + val y) - (val x + val y)) <= u * M) by (eapply Rle_trans; [exact D|]; apply Rmult_le_compat_l; lra).
  assert (Q : Rabs (rnd (val x + val y)) <= g * M).
  { replace (rnd (val x + val y)) with ((rnd (val x + val y) - (val x + val y)) + (val x + val y)) by ring. eapply Rle_trans; [apply Rabs_triang|]. lra. }
  destruct (add_cases prec emax x y Fx Fy) as [[_ [V F]]|[O _]]; [rewrite V; auto|lra].
Qed.
Lemma sub_ok (x y : fl) M : finite x -> finite y -> Rabs (val x - val y) <= M -> g * M < bpow radix2 emax ->
  finite (sub x y) /\ Rabs (val (sub x y) - (val x - val y)) <= u * M /\ Rabs (val (sub x y)) <= g * M.
Proof.
  intros Fx Fy H B. pose proof (roundoff_pos prec) as U.
  pose proof (add_err prec emax (val x) (- val y) (fmt_val prec emax _) (generic_format_opp _ _ _ (fmt_val prec emax _))) as D. rewrite <- (roundoff_u prec) in D.
  change (val x + - val y) with (val x - val y) in D.
  assert (E : Rabs (rnd (val x - val y) - (val x - val y)) <= u * M) by (eapply Rle_trans; [exact D|]; apply Rmult_le_compat_l; lra).
  assert (Q : Rabs (rnd (val x - val y)) <= g * M).
  { replace (rnd (val x - val y)) with ((rnd (val x - val y) - (val x - val y)) + (val x - val y)) by ring. eapply Rle_trans; [apply Rabs_triang|]. lra. }
  destruct (sub_cases prec emax x y Fx Fy) as [[_ [V F]]|[O _]]; [rewrite V; auto|lra].
Qed.
Lemma diff_abs x y a b : Rabs x <= a -> Rabs y <= b -> Rabs (x - y) <= a + b /\ Rabs (x + y) <= a + b.
Proof. intros X Y. apply Rabs_le_inv in X, Y. split; apply Rabs_le; lra. Qed.

Section Filter.
Variables b0 b1 b2 a1 a2 : fl.
Hypotheses (F0 : finite b0) (F1 : finite b1) (F2 : finite b2) (G1 : finite a1) (G2 : finite a2).
Variables X Y : R.
Hypotheses (HX : 0 <= X) (HY : 0 <= Y).
Notation p0 := (Rabs (val b0) * X).
Notation p1 := (Rabs (val b1) * X + Rabs (val a1) * Y).
Notation p2 := (Rabs (val b2) * X + Rabs (val a2) * Y).
Hypothesis Fits : g ^ 4 * (p0 + p1 + p2) + 3 * g ^ 3 * t < bpow radix2 emax.
Notation W1 := (g ^ 2 * p2 + g * t).
Notation W0 := (g ^ 3 * (p1 + p2) + 2 * g ^ 2 * t).
Notation E1 := ((g ^ 2 - 1) * p2 + g * t).
Notation E0 := ((g ^ 3 - 1) * p1 + g ^ 2 * t + u * W1).
Notation EO := ((g ^ 2 - 1) * p0 + g * (t / 2) + u * W0).

Lemma pos3 : 0 <= p0 /\ 0 <= p1 /\ 0 <= p2.
Proof.
  pose proof (Rabs_pos (val b0)). pose proof (Rabs_pos (val b1)). pose proof (Rabs_pos (val b2)). pose proof (Rabs_pos (val a1)). pose proof (Rabs_pos (val a2)).
  repeat split; repeat apply Rplus_le_le_0_compat; apply Rmult_le_pos; auto.
Qed.
Lemma powers : 1 <= g /\ g <= g ^ 2 /\ g ^ 2 <= g ^ 3 /\ g ^ 3 <= g ^ 4.
Proof. pose proof (roundoff_pos prec) as U. repeat split; try lra; cbn [pow]; nra. Qed.
(** Everything computed in one step fits. *)
Lemma room : W1 <= W0 /\ g * W0 + g ^ 2 * p0 + g * (t / 2) < bpow radix2 emax /\ W0 < bpow radix2 emax.
Proof.
  destruct pos3 as [P0 [P1 P2]]. destruct powers as [Q1 [Q2 [Q3 Q4]]]. pose proof t_pos as T.
  set (x0 := p0) in *. set (x1 := p1) in *. set (x2 := p2) in *. clearbody x0 x1 x2.
  assert (K1 : g ^ 2 * x2 <= g ^ 3 * x2) by (apply Rmult_le_compat_r; auto). assert (K2 : 0 <= g ^ 3 * x1) by (apply Rmult_le_pos; lra).
  assert (K3 : g * t <= g ^ 2 * t) by (apply Rmult_le_compat_r; lra). assert (K4 : 0 <= g ^ 2 * t) by (apply Rmult_le_pos; lra).
  assert (K5 : g ^ 2 * x0 <= g ^ 4 * x0) by (apply Rmult_le_compat_r; lra).
  assert (K6 : g ^ 2 * t <= g ^ 3 * t) by (apply Rmult_le_compat_r; lra).
  assert (K7 : g * (g ^ 3 * (x1 + x2) + 2 * g ^ 2 * t) = g ^ 4 * (x1 + x2) + 2 * (g ^ 3 * t)) by ring.
  assert (K8 : 0 <= g ^ 3 * (x1 + x2) + 2 * g ^ 2 * t) by (apply Rplus_le_le_0_compat; [apply Rmult_le_pos; lra|lra]).
  assert (K9 : 0 <= g ^ 2 * x0) by (apply Rmult_le_pos; lra). assert (K10 : 0 <= g * t) by (apply Rmult_le_pos; lra).
  assert (K11 : 1 * (g ^ 3 * (x1 + x2) + 2 * g ^ 2 * t) <= g * (g ^ 3 * (x1 + x2) + 2 * g ^ 2 * t)) by (apply Rmult_le_compat_r; lra).
  split; [lra|]. split; lra.
Qed.
(** The output of one sample. *)
Lemma step_out (w : fl * fl) x : finite (fst w) -> Rabs (val (fst w)) <= W0 -> finite x -> Rabs (val x) <= X ->
  let out := snd (f_biquad prec emax b0 b1 b2 a1 a2 w x) in
  finite out /\ Rabs (val out - (val b0 * val x + val (fst w))) <= EO.
Proof.
  intros Fw0 Bw0 Fx Bx. destruct w as [w0 w1]. cbn [fst snd] in *. cbv zeta. unfold f_biquad. cbn [fst snd].
  destruct pos3 as [P0 [P1 P2]]. destruct powers as [Q1 [Q2 [Q3 Q4]]]. pose proof t_pos as T. destruct room as [R1 [R2 R3]]. pose proof (roundoff_pos prec) as U.
  assert (N0 : 0 <= W0) by (eapply Rle_trans; [apply Rabs_pos|exact Bw0]).
  destruct (mul_ok b0 x _ X F0 Fx (Rle_refl _) Bx) as [Fm0 [Em0 Bm0]]. { assert (g * p0 <= g ^ 2 * p0) by (apply Rmult_le_compat_r; lra). assert (0 <= g * W0) by (apply Rmult_le_pos; lra). assert (t / 2 <= g * (t / 2)) by nra. lra. }
  destruct (add_ok (mul b0 x) w0 (g * p0 + t / 2 + W0) Fm0 Fw0) as [Fo [Eo Bo]].
  { apply diff_abs; auto. }
  { assert (g * (g * p0 + t / 2 + W0) = g * W0 + g ^ 2 * p0 + g * (t / 2)) by ring. lra. }
  split; [exact Fo|].
  replace (val (add (mul b0 x) w0) - (val b0 * val x + val w0)) with ((val (add (mul b0 x) w0) - (val (mul b0 x) + val w0)) + (val (mul b0 x) - val b0 * val x)) by ring.
  eapply Rle_trans; [apply Rabs_triang|].
  assert (u * (g * p0 + t / 2 + W0) + (u * p0 + t / 2) = (g ^ 2 - 1) * p0 + g * (t / 2) + u * W0) by ring. lra.
Qed.
(** The states left by one sample. *)
Lemma step_states (w : fl * fl) x : finite (snd w) -> Rabs (val (snd w)) <= W1 -> finite x -> Rabs (val x) <= X ->
  let p := f_biquad prec emax b0 b1 b2 a1 a2 w x in let out := snd p in
  finite out -> Rabs (val out) <= Y ->
  finite (fst (fst p)) /\ finite (snd (fst p)) /\ Rabs (val (fst (fst p))) <= W0 /\ Rabs (val (snd (fst p))) <= W1 /\
  Rabs (val (fst (fst p)) - (val b1 * val x - val a1 * val out + val (snd w))) <= E0 /\
  Rabs (val (snd (fst p)) - (val b2 * val x - val a2 * val out)) <= E1.
Proof.
  intros Fw1 Bw1 Fx Bx. destruct w as [w0 w1]. cbn [fst snd] in *. cbv zeta. unfold f_biquad. cbn [fst snd]. set (out := add (mul b0 x) w0). intros Fo BY.
  destruct pos3 as [P0 [P1 P2]]. destruct powers as [Q1 [Q2 [Q3 Q4]]]. pose proof t_pos as T. destruct room as [R1 [R2 R3]]. pose proof (roundoff_pos prec) as U.
  pose proof (Rabs_pos (val b1)) as Ab1. pose proof (Rabs_pos (val b2)) as Ab2. pose proof (Rabs_pos (val a1)) as Aa1. pose proof (Rabs_pos (val a2)) as Aa2.
  assert (Pb1 : 0 <= Rabs (val b1) * X) by (apply Rmult_le_pos; auto). assert (Pb2 : 0 <= Rabs (val b2) * X) by (apply Rmult_le_pos; auto).
  assert (Pa1 : 0 <= Rabs (val a1) * Y) by (apply Rmult_le_pos; auto). assert (Pa2 : 0 <= Rabs (val a2) * Y) by (apply Rmult_le_pos; auto).
  assert (N1 : 0 <= W1) by (apply Rplus_le_le_0_compat; apply Rmult_le_pos; lra).
  assert (gt1 : t <= g * t) by nra. assert (gt2 : g * t <= g ^ 2 * t) by (apply Rmult_le_compat_r; lra). assert (gt3 : g ^ 2 * t <= g ^ 3 * t) by (apply Rmult_le_compat_r; lra).
  assert (L1 : g * p1 + t <= W0 /\ g * (g * p1 + t) <= W0).
  { assert (g * p1 <= g ^ 3 * p1) by (apply Rmult_le_compat_r; lra). assert (0 <= g ^ 3 * p2) by (apply Rmult_le_pos; lra).
    assert (g * (g * p1 + t) = g ^ 2 * p1 + g * t) by ring. assert (g ^ 2 * p1 <= g ^ 3 * p1) by (apply Rmult_le_compat_r; lra). split; lra. }
  assert (L2 : g * p2 + t <= W1 /\ g * (g * p2 + t) <= W1).
  { assert (g * p2 <= g ^ 2 * p2) by (apply Rmult_le_compat_r; lra). assert (g * (g * p2 + t) = g ^ 2 * p2 + g * t) by ring. split; lra. }
  assert (M1 : 0 <= g * (Rabs (val b1) * X)) by (apply Rmult_le_pos; lra). assert (M2 : 0 <= g * (Rabs (val a1) * Y)) by (apply Rmult_le_pos; lra).
  assert (M3 : 0 <= g * (Rabs (val b2) * X)) by (apply Rmult_le_pos; lra). assert (M4 : 0 <= g * (Rabs (val a2) * Y)) by (apply Rmult_le_pos; lra).
  destruct (mul_ok b1 x _ X F1 Fx (Rle_refl _) Bx ltac:(lra)) as [Fm1 [Em1 Bm1]].
  destruct (mul_ok a1 out _ Y G1 Fo (Rle_refl _) BY ltac:(lra)) as [Fn1 [En1 Bn1]].
  destruct (sub_ok (mul b1 x) (mul a1 out) (g * p1 + t) Fm1 Fn1) as [Fs1 [Es1 Bs1]]. { eapply Rle_trans; [exact (proj1 (diff_abs _ _ _ _ Bm1 Bn1))|]. lra. } { lra. }
  assert (Z1 : g * (g * (g * p1 + t) + W1) <= W0).
  { assert (H : g * (g * (g * p1 + t) + W1) = g ^ 3 * p1 + g ^ 2 * t + (g ^ 3 * p2 + g ^ 2 * t)) by ring. rewrite H. lra. }
  destruct (add_ok (sub (mul b1 x) (mul a1 out)) w1 (g * (g * p1 + t) + W1) Fs1 Fw1) as [Fv0 [Ev0 Bv0]]. { apply diff_abs; auto. } { lra. }
  destruct (mul_ok b2 x _ X F2 Fx (Rle_refl _) Bx ltac:(lra)) as [Fm2 [Em2 Bm2]].
  destruct (mul_ok a2 out _ Y G2 Fo (Rle_refl _) BY ltac:(lra)) as [Fn2 [En2 Bn2]].
  destruct (sub_ok (mul b2 x) (mul a2 out) (g * p2 + t) Fm2 Fn2) as [Fs2 [Es2 Bs2]]. { eapply Rle_trans; [exact (proj1 (diff_abs _ _ _ _ Bm2 Bn2))|]. lra. } { lra. }
  split; [exact Fv0|]. split; [exact Fs2|]. split; [lra|]. split; [lra|].
  split.
  - set (A := val (add (sub (mul b1 x) (mul a1 out)) w1)) in *. set (B := val (sub (mul b1 x) (mul a1 out))) in *.
    replace (A - (val b1 * val x - val a1 * val out + val w1)) with
      ((A - (B + val w1)) + (B - (val (mul b1 x) - val (mul a1 out))) + (val (mul b1 x) - val b1 * val x) - (val (mul a1 out) - val a1 * val out)) by ring.
    assert (HE : E0 = u * (g * (g * p1 + t) + W1) + u * (g * p1 + t) + u * p1 + t) by ring.
    assert (u * (Rabs (val b1) * X) + u * (Rabs (val a1) * Y) = u * p1) by ring.
    apply Rabs_le_inv in Ev0, Es1, Em1, En1. apply Rabs_le. lra.
  - set (B := val (sub (mul b2 x) (mul a2 out))) in *.
    replace (B - (val b2 * val x - val a2 * val out)) with ((B - (val (mul b2 x) - val (mul a2 out))) + (val (mul b2 x) - val b2 * val x) - (val (mul a2 out) - val a2 * val out)) by ring.
    assert (HE : E1 = u * (g * p2 + t) + u * p2 + t) by ring. assert (u * (Rabs (val b2) * X) + u * (Rabs (val a2) * Y) = u * p2) by ring.
    apply Rabs_le_inv in Es2, Em2, En2. apply Rabs_le. lra.
Qed.
Notation E := ((g ^ 4 - 1) * (p0 + p1 + p2) + 3 * g ^ 3 * t).
Lemma local_total : EO + E0 + E1 <= E.
Proof.
  destruct pos3 as [P0 [P1 P2]]. destruct powers as [Q1 [Q2 [Q3 Q4]]]. pose proof t_pos as T. pose proof (roundoff_pos prec) as U.
  set (x0 := p0) in *. set (x1 := p1) in *. set (x2 := p2) in *. clearbody x0 x1 x2.
  assert (H : (g ^ 2 - 1) * x0 + g * (t / 2) + u * (g ^ 3 * (x1 + x2) + 2 * g ^ 2 * t) + ((g ^ 3 - 1) * x1 + g ^ 2 * t + u * (g ^ 2 * x2 + g * t)) + ((g ^ 2 - 1) * x2 + g * t)
    = (g ^ 2 - 1) * x0 + (g ^ 4 - 1) * (x1 + x2) + (3 / 2 * g + 2 * u * g ^ 2 + g ^ 2 + u * g) * t) by field.
  rewrite H. assert (K : (g ^ 2 - 1) * x0 <= (g ^ 4 - 1) * x0) by (apply Rmult_le_compat_r; lra).
  assert (K2 : (3 / 2 * g + 2 * u * g ^ 2 + g ^ 2 + u * g) * t <= (3 * g ^ 3) * t); [apply Rmult_le_compat_r; [lra|]|lra].
  assert (3 * g ^ 3 = 3 * g ^ 2 + 3 * u * g ^ 2) by ring. assert (u * g <= u * g ^ 2) by (apply Rmult_le_compat_l; lra). lra.
Qed.

(** The run as sequences, and the local errors. *)
Variable xs : list fl.
Hypothesis Hxs : Forall (fun x => finite x /\ Rabs (val x) <= X) xs.
Notation zero := (fzero prec emax).
Notation x n := (nth n xs zero).
Fixpoint st (n : nat) : fl * fl := match n with O => (zero, zero) | S m => fst (f_biquad prec emax b0 b1 b2 a1 a2 (st m) (x m)) end.
Definition y (n : nat) : fl := snd (f_biquad prec emax b0 b1 b2 a1 a2 (st n) (x n)).
Definition e0 (n : nat) : R := val (y n) - (val b0 * val (x n) + val (fst (st n))).
Definition e1 (n : nat) : R := val (fst (st (S n))) - (val b1 * val (x n) - val a1 * val (y n) + val (snd (st n))).
Definition e2 (n : nat) : R := val (snd (st (S n))) - (val b2 * val (x n) - val a2 * val (y n)).
Definition noise (n : nat) : R := e0 n + BiquadProofs.sh e1 n + BiquadProofs.sh (BiquadProofs.sh e2) n.
Lemma perturbed n : BiquadProofs.P 1 (val a1) (val a2) (fun k => val (y k)) n = BiquadProofs.P (val b0) (val b1) (val b2) (fun k => val (x k)) n + noise n.
Proof.
  unfold noise, BiquadProofs.P. destruct n as [|[|n]]; cbn [BiquadProofs.sh].
  - unfold e0. cbn [st fst]. change (val zero) with 0. lra.
  - unfold e0, e1. cbn [st snd]. change (val zero) with 0. lra.
  - unfold e0, e1, e2. lra.
Qed.
Lemma x_ok n : finite (x n) /\ Rabs (val (x n)) <= X.
Proof.
  destruct (lt_dec n (length xs)) as [L|L]; [rewrite Forall_forall in Hxs; apply Hxs, nth_In; auto|].
  rewrite nth_overflow by lia. split; [reflexivity|]. change (val zero) with 0. rewrite Rabs_R0. exact HX.
Qed.
Variables (p r : Cplx.C).
Hypotheses (Es : Cplx.Cadd p r = Cplx.RtoC (- val a1)) (Ep : Cplx.Cmul p r = Cplx.RtoC (val a2)) (Mp : Cplx.Cmod p < 1) (Mr : Cplx.Cmod r < 1).
Notation B := (Rabs (val b0) + Rabs (val b1) + Rabs (val b2)).
Hypothesis Gain : (B * X + E) / (1 - Cplx.Cmod r) / (1 - Cplx.Cmod p) <= Y.
Definition good (n : nat) : Prop := finite (y n) /\ Rabs (val (y n)) <= Y /\ Rabs (e0 n) <= EO /\ Rabs (e1 n) <= E0 /\ Rabs (e2 n) <= E1.
Lemma parts : 0 <= EO /\ 0 <= E0 /\ 0 <= E1.
Proof.
  destruct pos3 as [P0 [P1 P2]]. destruct powers as [Q1 [Q2 [Q3 Q4]]]. pose proof t_pos as T. pose proof (roundoff_pos prec) as U.
  set (x0 := p0) in *. set (x1 := p1) in *. set (x2 := p2) in *. clearbody x0 x1 x2.
  repeat split; repeat apply Rplus_le_le_0_compat; repeat apply Rmult_le_pos; try lra; repeat apply Rplus_le_le_0_compat; repeat apply Rmult_le_pos; lra.
Qed.
Lemma noise_bound N : (forall k, (k < N)%nat -> good k) -> Rabs (e0 N) <= EO -> forall k, (k <= N)%nat -> Rabs (noise k) <= E.
Proof.
  intros H HN k L. pose proof local_total as LT. destruct parts as [Z0 [Z1 Z2]].
  assert (A0 : Rabs (e0 k) <= EO) by (destruct (Nat.eq_dec k N) as [->|]; [exact HN|apply H; lia]).
  assert (A1 : Rabs (BiquadProofs.sh e1 k) <= E0) by (destruct k; cbn; [rewrite Rabs_R0; exact Z1|apply H; lia]).
  assert (A2 : Rabs (BiquadProofs.sh (BiquadProofs.sh e2) k) <= E1) by (destruct k as [|[|k]]; cbn; try (rewrite Rabs_R0; exact Z2); apply H; lia).
  unfold noise. eapply Rle_trans; [apply Rabs_triang|]. eapply Rle_trans; [apply Rplus_le_compat_r, Rabs_triang|]. lra.
Qed.
Lemma invariant n : (forall k, (k < n)%nat -> good k) /\ finite (fst (st n)) /\ finite (snd (st n)) /\ Rabs (val (fst (st n))) <= W0 /\ Rabs (val (snd (st n))) <= W1.
Proof.
  destruct pos3 as [P0 [P1 P2]]. destruct powers as [Q1 [Q2 [Q3 Q4]]]. pose proof t_pos as T.
  induction n as [|n [IH [Fa [Fb [Ba Bb]]]]].
  - split; [intros; lia|]. cbn [st fst snd]. change (val zero) with 0. rewrite Rabs_R0. repeat split; repeat apply Rplus_le_le_0_compat; repeat apply Rmult_le_pos; lra.
  - destruct (x_ok n) as [Fx Bx]. destruct (step_out (st n) (x n) Fa Ba Fx Bx) as [Fo Eo]. fold (y n) in Fo, Eo. change (Rabs (e0 n) <= EO) in Eo.
    assert (BY : Rabs (val (y n)) <= Y).
    { eapply Rle_trans; [|exact Gain].
      apply (StabilityProofs.second_order_bound p r (fun k => val (y k)) _ _ _ _ (S n) Es Ep Mp Mr (fun k _ => perturbed k)); [|lia].
      intros k L. eapply Rle_trans; [apply Rabs_triang|]. apply Rplus_le_compat.
      - apply (StabilityProofs.P_bound _ _ _ (fun j => val (x j)) X (S n)); [|exact L]. intros j _. apply x_ok.
      - apply (noise_bound n); auto. lia. }
    destruct (step_states (st n) (x n) Fb Bb Fx Bx Fo BY) as [S1 [S2 [S3 [S4 [S5 S6]]]]].
    split; [|cbn [st]; auto].
    intros k L. destruct (Nat.eq_dec k n) as [->|]; [|apply IH; lia]. unfold good. auto.
Qed.
Lemma outputs : snd (f_filter prec emax b0 b1 b2 a1 a2 (zero, zero) xs) = map y (seq 0 (length xs)).
Proof.
  assert (G : forall k, (k <= length xs)%nat -> snd (f_filter prec emax b0 b1 b2 a1 a2 (st k) (skipn k xs)) = map y (seq k (length xs - k))).
  { intros k. remember (length xs - k)%nat as m eqn:Em. revert k Em. induction m as [|m IH]; intros k Em L.
    - rewrite skipn_all2 by lia. reflexivity.
    - assert (SK : skipn k xs = x k :: skipn (S k) xs). { clear -Em. revert k Em. induction xs as [|a l IH]; intros k Em; [cbn in Em; lia|]. destruct k; [reflexivity|]. cbn. apply IH. cbn in Em. lia. }
      rewrite SK. cbn [f_filter seq map snd]. cbv zeta. f_equal. apply (IH (S k)); lia. }
  specialize (G 0%nat ltac:(lia)). rewrite Nat.sub_0_r in G. exact G.
Qed.
Notation exact := (BiquadModel.mkBq (val b2) (val b1) (val b0) (val a2) (val a1) 1 0 0).
Lemma run : Forall2 (fun y z => finite y /\ Rabs (val y) <= Y /\ Rabs (val y - z) <= E / (1 - Cplx.Cmod r) / (1 - Cplx.Cmod p))
  (snd (f_filter prec emax b0 b1 b2 a1 a2 (zero, zero) xs)) (snd (BiquadModel.bq_filter exact (map val xs))).
Proof.
  pose proof (proj1 (BiquadProofs.obeys_P _ _ _ _ _ _ _ _) (BiquadProofs.biquad_obeys exact (map val xs) eq_refl eq_refl)) as [LZ EZ].
  cbn [BiquadModel.a1 BiquadModel.a2 BiquadModel.b0 BiquadModel.b1 BiquadModel.b2] in EZ. rewrite map_length in LZ, EZ.
  set (zs := snd (BiquadModel.bq_filter exact (map val xs))) in *. rewrite outputs.
  assert (EZ' : zs = map (fun k => nth k zs 0) (seq 0 (length xs))). { rewrite <- LZ. clear. induction zs as [|z l IH]; [reflexivity|]. cbn [length seq map nth]. f_equal. rewrite <- seq_shift, map_map. exact IH. }
  rewrite EZ'. clear EZ'. assert (D : forall k, (k < length xs)%nat -> finite (y k) /\ Rabs (val (y k)) <= Y /\ Rabs (val (y k) - nth k zs 0) <= E / (1 - Cplx.Cmod r) / (1 - Cplx.Cmod p)).
  { intros k L. destruct (invariant (length xs)) as [G _]. destruct (G k L) as [G0 [G3 _]]. split; [exact G0|]. split; [exact G3|].
    apply (StabilityProofs.second_order_bound p r (fun k => val (y k) - nth k zs 0) noise (val a1) (val a2) E (length xs) Es Ep Mp Mr); auto.
    - intros j Lj. specialize (EZ j Lj). pose proof (perturbed j) as PJ. unfold BiquadProofs.P, BiquadProofs.seqof in *.
      assert (SX : forall m, nth m (map val xs) 0 = val (x m)) by (intros m; change 0 with (val zero); apply map_nth).
      assert (X1 : BiquadProofs.sh (fun n => nth n (map val xs) 0) j = BiquadProofs.sh (fun k => val (x k)) j) by (destruct j; cbn; auto).
      assert (X2 : BiquadProofs.sh (BiquadProofs.sh (fun n => nth n (map val xs) 0)) j = BiquadProofs.sh (BiquadProofs.sh (fun k => val (x k))) j) by (destruct j as [|[|j]]; cbn; auto).
      rewrite X1, X2, SX in EZ.
      assert (D1 : BiquadProofs.sh (fun k => val (y k) - nth k zs 0) j = BiquadProofs.sh (fun k => val (y k)) j - BiquadProofs.sh (fun k => nth k zs 0) j) by (destruct j; cbn; lra).
      assert (D2 : BiquadProofs.sh (BiquadProofs.sh (fun k => val (y k) - nth k zs 0)) j = BiquadProofs.sh (BiquadProofs.sh (fun k => val (y k))) j - BiquadProofs.sh (BiquadProofs.sh (fun k => nth k zs 0)) j) by (destruct j as [|[|j]]; cbn; lra).
      rewrite D1, D2. change (BiquadProofs.seqof zs) with (fun k => nth k zs 0) in EZ. lra.
    - intros j Lj. destruct (invariant (length xs)) as [G' _]. apply (noise_bound j); [intros; apply G'; lia|apply G'; lia|lia]. }
  assert (D' : forall k, In k (seq 0 (length xs)) -> (k < length xs)%nat) by (intros k K; apply in_seq in K; lia).
  revert D'. generalize (seq 0 (length xs)) as l. induction l as [|k l IH]; intros D'; constructor; [apply D; apply D'; left; auto|apply IH; intros; apply D'; right; auto].
Qed.
End Filter.

(** The factorisation determines the sum and the product of the poles. *)
Lemma coefficients c1 c2 p r : (forall z, Cplx.Cadd (Cplx.Cadd (Cplx.Cmul z z) (Cplx.Cmul (Cplx.RtoC c1) z)) (Cplx.RtoC c2) = Cplx.Cmul (Cplx.Csub z p) (Cplx.Csub z r)) ->
  Cplx.Cadd p r = Cplx.RtoC (- c1) /\ Cplx.Cmul p r = Cplx.RtoC c2.
Proof.
  intros H. pose proof (H (Cplx.RtoC 0)) as H0. pose proof (H (Cplx.RtoC 1)) as H1. destruct p as [px py], r as [rx ry].
  injection H0 as H0 H0'. injection H1 as H1 H1'. split; apply injective_projections; cbn in *; lra.
Qed.
(** C123: a section whose poles p and r lie inside the unit circle, up to rounding.  Let H be
    1/((1-|p|)(1-|r|)), an upper bound of the gain of its recursive part.  Inputs bounded by X give,
    forever, finite outputs bounded by Y and within H times the error of one step of the outputs of the
    same section in exact arithmetic. *)
Theorem C123_bounded b0 b1 b2 a1 a2 X Y p r xs :
  finite b0 -> finite b1 -> finite b2 -> finite a1 -> finite a2 ->
  (forall z, Cplx.Cadd (Cplx.Cadd (Cplx.Cmul z z) (Cplx.Cmul (Cplx.RtoC (val a1)) z)) (Cplx.RtoC (val a2)) = Cplx.Cmul (Cplx.Csub z p) (Cplx.Csub z r)) ->
  Cplx.Cmod p < 1 -> Cplx.Cmod r < 1 ->
  let H := / ((1 - Cplx.Cmod p) * (1 - Cplx.Cmod r)) in
  let B := Rabs (val b0) + Rabs (val b1) + Rabs (val b2) in let A := Rabs (val a1) + Rabs (val a2) in
  let e := ((1 + u) ^ 4 - 1) * (B * X + A * Y) + 3 * (1 + u) ^ 3 * smallest prec emax in
  0 <= X -> 0 <= Y -> H * (B * X + e) <= Y -> B * X + A * Y + e < IZR (2 ^ emax) ->
  Forall (fun x => finite x /\ Rabs (val x) <= X) xs ->
  Forall2 (fun y z => finite y /\ Rabs (val y) <= Y /\ Rabs (val y - z) <= H * e)
    (snd (f_filter prec emax b0 b1 b2 a1 a2 (fzero prec emax, fzero prec emax) xs))
    (snd (BiquadModel.bq_filter (BiquadModel.mkBq (val b2) (val b1) (val b0) (val a2) (val a1) 1 0 0) (map val xs))).
Proof.
  intros F0 F1 F2 G1 G2 FA Mp Mr H B A e HX HY HG HB Hx.
  assert (PE : IZR (2 ^ emax) = bpow radix2 emax).
  { apply (IZR_Zpower radix2). pose proof Hprec as P. pose proof Hmax as M. unfold Prec_gt_0 in P. unfold Prec_lt_emax in M. lia. }
  rewrite PE in HB. assert (EG : B * X + A * Y = Rabs (val b0) * X + (Rabs (val b1) * X + Rabs (val a1) * Y) + (Rabs (val b2) * X + Rabs (val a2) * Y)) by (unfold A, B; ring).
  assert (DV : forall v, H * v = v / (1 - Cplx.Cmod r) / (1 - Cplx.Cmod p)) by (intros v; unfold H; field; lra).
  destruct (coefficients _ _ _ _ FA) as [Es Ep].
  rewrite DV in HG |- *. unfold e in *. rewrite EG in HG, HB |- *.
  apply run; auto. lra.
Qed.

(** Silence in, silence out. *)
Lemma zero_val (x : fl) : finite x -> val x = 0 -> exists s, x = B754_zero s.
Proof.
  intros F V. destruct x as [s|s| |s m e H]; try discriminate F; [eauto|]. exfalso. apply (proj2 (val_nonzero prec emax (B754_finite s m e H)) ltac:(eauto)). exact V.
Qed.
Theorem C123_silence b0 b1 b2 a1 a2 xs : finite b0 -> finite b1 -> finite b2 -> finite a1 -> finite a2 ->
  Forall (fun x => finite x /\ val x = 0) xs ->
  Forall (fun y => finite y /\ val y = 0) (snd (f_filter prec emax b0 b1 b2 a1 a2 (fzero prec emax, fzero prec emax) xs)).
Proof.
  intros F0 F1 F2 G1 G2 H.
  assert (M : forall c s, finite c -> exists s', mul c (B754_zero s) = B754_zero s') by (intros c s F; destruct c as [?|?| |]; try discriminate F; eexists; reflexivity).
  assert (P : forall s s', exists r, add (B754_zero s) (B754_zero s') = B754_zero r) by (intros [] []; eexists; reflexivity).
  assert (Q : forall s s', exists r, sub (B754_zero s) (B754_zero s') = B754_zero r) by (intros [] []; eexists; reflexivity).
  assert (G : forall s s', Forall (fun y => finite y /\ val y = 0) (snd (f_filter prec emax b0 b1 b2 a1 a2 (B754_zero s, B754_zero s') xs))); [|apply (G false false)].
  induction H as [|x xs [Fx Vx] H IH]; intros s s'; [constructor|]. destruct (zero_val x Fx Vx) as [sx ->].
  cbn [f_filter]. cbv zeta. unfold f_biquad. cbn [fst snd].
  destruct (M b0 sx F0) as [m0 ->]. destruct (P m0 s) as [o ->]. destruct (M b1 sx F1) as [m1 ->]. destruct (M b2 sx F2) as [m2 ->]. destruct (M a1 o G1) as [n1 ->]. destruct (M a2 o G2) as [n2 ->].
  destruct (Q m1 n1) as [r1 ->]. destruct (P r1 s') as [r2 ->]. destruct (Q m2 n2) as [r3 ->]. constructor; [split; reflexivity|apply IH].
Qed.
End Format.

(** A section with one pole at 0.9, excited once by a full-scale sample, in doubles. *)
Definition pole : double := ratio (-9) 10.
Definition ring (xs : list double) : list double := snd (f_filter 53 1024 (dbl 1) (dbl 0) (dbl 0) pole (dbl 0) (fzero 53 1024, fzero 53 1024) xs).
Definition rest (w : double * double) : double * double := fst (f_biquad 53 1024 (dbl 1) (dbl 0) (dbl 0) pole (dbl 0) w (dbl 0)).
Definition hit : double * double := fst (f_biquad 53 1024 (dbl 1) (dbl 0) (dbl 0) pole (dbl 0) (fzero 53 1024, fzero 53 1024) (dbl 1)).
Fixpoint settle (n : nat) (w : double * double) : double * double := match n with O => w | S m => settle m (rest w) end.
Definition stuck : double * double := settle (80 * 100) hit.
Lemma stuck_sf : B2SF (fst stuck) = SpecFloat.S754_finite false 5 (-1074) /\ B2SF (snd stuck) = SpecFloat.S754_zero false /\
  B2SF (fst (rest stuck)) = SpecFloat.S754_finite false 5 (-1074) /\ B2SF (snd (rest stuck)) = SpecFloat.S754_zero false /\
  B2SF (fadd 53 1024 (fmul 53 1024 (dbl 1) (dbl 0)) (fst stuck)) = SpecFloat.S754_finite false 5 (-1074).
Proof. vm_compute. repeat split; reflexivity. Qed.
Lemma rest_stuck : rest stuck = stuck.
Proof.
  destruct stuck_sf as [A [B [C0 [D _]]]]. apply injective_projections; apply B2SF_inj; congruence.
Qed.
Lemma settle_S n w : settle (S n) w = settle n (rest w). Proof. reflexivity. Qed.
Lemma settle_add n m w : settle (n + m) w = settle m (settle n w).
Proof. revert w. induction n as [|n IH]; intros w; [reflexivity|]. cbn [Nat.add settle]. apply IH. Qed.
Lemma settle_stuck n : (80 * 100 <= n)%nat -> settle n hit = stuck.
Proof.
  intros L. assert (E : n = (80 * 100 + (n - 80 * 100))%nat) by lia. rewrite E, settle_add. fold stuck. generalize (n - 80 * 100)%nat. clear.
  induction n as [|n IH]; [reflexivity|]. rewrite settle_S, rest_stuck. exact IH.
Qed.
Lemma ring_nth n m : (n < m)%nat -> nth (S n) (ring (dbl 1 :: repeat (dbl 0) m)) (dbl 0) = fadd 53 1024 (fmul 53 1024 (dbl 1) (dbl 0)) (fst (settle n hit)).
Proof.
  intros L. unfold ring. cbn [f_filter snd nth]. fold hit. generalize hit. revert n L. induction m as [|m IH]; intros n L w; [lia|]. cbn [repeat f_filter snd]. destruct n as [|n]; [reflexivity|].
  cbn [nth]. change (fst (f_biquad 53 1024 (dbl 1) (dbl 0) (dbl 0) pole (dbl 0) w (dbl 0))) with (rest w). rewrite settle_S. apply IH. lia.
Qed.
(** The section is stable, yet after one full-scale sample and silence it never falls silent: from some
    point on every output is the same positive number. *)
Theorem C123_ringing_actual : Rabs (B2R (dbl 0)) < 1 /\ Rabs (B2R pole) < 1 + B2R (dbl 0) /\
  exists y : double, finite y /\ lt (dbl 0) y /\ forall n m, (80 * 100 < n <= m)%nat -> nth n (ring (dbl 1 :: repeat (dbl 0) m)) (dbl 0) = y.
Proof.
  assert (Z0 : B2R (dbl 0) = 0). { replace (dbl 0) with (B754_zero false : double); [reflexivity|]. apply B2SF_inj. vm_compute. reflexivity. }
  rewrite Z0, Rabs_R0. split; [lra|]. split.
  { destruct pole as [s|s| |s m e H] eqn:EP; try (cbn; rewrite Rabs_R0; lra).
    assert (SF : B2SF pole = SpecFloat.S754_finite true 8106479329266893 (-53)) by (vm_compute; reflexivity). rewrite EP in SF. cbn in SF. injection SF as -> -> ->.
    cbn [B2R]. unfold F2R. cbn [Fnum Fexp cond_Zopp Z.opp]. rewrite Rabs_mult, <- abs_IZR, (Rabs_right (bpow radix2 (-53))) by (apply Rle_ge, bpow_ge_0). cbn. lra. }
  exists (fadd 53 1024 (fmul 53 1024 (dbl 1) (dbl 0)) (fst stuck)). destruct stuck_sf as [_ [_ [_ [_ SF]]]].
  assert (EX : exists y, fadd 53 1024 (fmul 53 1024 (dbl 1) (dbl 0)) (fst stuck) = y) by eauto. destruct EX as [y EY]. rewrite EY in *.
  split; [destruct y; try discriminate SF; reflexivity|]. split.
  { unfold lt, Bltb. rewrite SF. vm_compute. reflexivity. }
  intros n m L. destruct n as [|n]; [lia|]. rewrite ring_nth by lia. rewrite settle_stuck by lia. exact EY.
Qed.
Theorem C123_decay_refuted : ~ (forall eps, 0 < eps -> exists N, forall n m, (N <= n <= m)%nat -> Rabs (B2R (nth n (ring (dbl 1 :: repeat (dbl 0) m)) (dbl 0))) < eps).
Proof.
  intros H. destruct C123_ringing_actual as [_ [_ [y [F [P E]]]]].
  assert (Z0 : B2R (dbl 0) = 0). { replace (dbl 0) with (B754_zero false : double); [reflexivity|]. apply B2SF_inj. vm_compute. reflexivity. }
  apply (lt_iff 53 1024) in P. destruct P as [_ [_ P]]. rewrite !level_fin in P by (exact F || (vm_compute; reflexivity)). rewrite Z0 in P.
  destruct (H (B2R y) P) as [N K]. set (n := Nat.max N (80 * 100 + 1)). specialize (K n n ltac:(lia)). rewrite E in K by lia. rewrite Rabs_right in K by lra. lra.
Qed.
(** The bound applies, e.g., to a section with poles 1/2 and 0, so H = 2, with inputs up to 1. *)
Example C123_example : let u := roundoff 53 in let t := smallest 53 1024 in
  let e := ((1 + u) ^ 4 - 1) * (1 * 1 + / 2 * 3) + 3 * (1 + u) ^ 3 * t in
  / ((1 - Cplx.Cmod (Cplx.RtoC (/ 2))) * (1 - Cplx.Cmod (Cplx.RtoC 0))) * (1 * 1 + e) <= 3 /\ 1 * 1 + / 2 * 3 + e < IZR (2 ^ 1024) /\
  (forall z, Cplx.Cadd (Cplx.Cadd (Cplx.Cmul z z) (Cplx.Cmul (Cplx.RtoC (B2R (ratio (-1) 2))) z)) (Cplx.RtoC (B2R (dbl 0))) = Cplx.Cmul (Cplx.Csub z (Cplx.RtoC (/ 2))) (Cplx.Csub z (Cplx.RtoC 0))).
Proof.
  cbv zeta. assert (U : roundoff 53 = / 9007199254740992) by (unfold roundoff; reflexivity).
  assert (T : 0 < smallest 53 1024 <= / 9007199254740992 ^ 2).
  { unfold smallest. change (1024 + 53 - 3)%Z with 1074%Z. split; [apply Rinv_0_lt_compat; apply IZR_lt; reflexivity|]. apply Rinv_le_contravar; [lra|].
    replace (9007199254740992 ^ 2) with (IZR (2 ^ 106)) by (change (2 ^ 106)%Z with (9007199254740992 * 9007199254740992)%Z; rewrite mult_IZR; cbn [pow]; ring). apply IZR_le. vm_compute. discriminate. }
  assert (M1 : Cplx.Cmod (Cplx.RtoC (/ 2)) = / 2) by (rewrite CplxProofs.Cmod_RtoC; apply Rabs_right; lra).
  assert (M0 : Cplx.Cmod (Cplx.RtoC 0) = 0) by (rewrite CplxProofs.Cmod_RtoC; apply Rabs_R0).
  assert (BIG : 100 < IZR (2 ^ 1024)) by (apply IZR_lt; reflexivity).
  assert (VH : B2R (ratio (-1) 2) = - / 2).
  { assert (SF : B2SF (ratio (-1) 2) = SpecFloat.S754_finite true 4503599627370496 (-53)) by (vm_compute; reflexivity). destruct (ratio (-1) 2) as [s|s| |s m e H]; try discriminate SF. cbn in SF. injection SF as -> -> ->.
    unfold B2R, F2R. cbn [cond_Zopp Fnum Fexp]. cbn. lra. }
  assert (V0 : B2R (dbl 0) = 0). { replace (dbl 0) with (B754_zero false : double); [reflexivity|]. apply B2SF_inj. vm_compute. reflexivity. }
  rewrite M1, M0, U, VH, V0. replace (/ ((1 - / 2) * (1 - 0))) with 2 by field. set (t := smallest 53 1024) in *. clearbody t.
  split; [cbn [pow] in *; lra|]. split; [cbn [pow] in *; lra|]. intros [zx zy]. apply injective_projections; cbn; lra.
Qed.
Print Assumptions C123_bounded.
Print Assumptions C123_silence.
Print Assumptions C123_ringing_actual.
Print Assumptions C123_decay_refuted.
