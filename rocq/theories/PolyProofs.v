(** Products of linear factors over the complex numbers. *)
From Coq Require Import Psatz Lia List.
From Verif Require Import RealBase RealBaseProofs Cplx CplxProofs.
Import ListNotations.
Local Open Scope R_scope.

Fixpoint peval (p : list C) (z : C) : C :=
  match p with [] => C0 | a :: t => Cadd a (Cmul z (peval t z)) end.
Fixpoint padd (p q : list C) : list C :=
  match p, q with
  | [], _ => q
  | _, [] => p
  | a :: s, b :: t => Cadd a b :: padd s t
  end.
Definition pscal (k : C) (p : list C) : list C := map (Cmul k) p.
Fixpoint cprod (l : list C) : C := match l with [] => C1 | a :: t => Cmul a (cprod t) end.

Lemma peval_add p q z : peval (padd p q) z = Cadd (peval p z) (peval q z).
Proof.
  revert q; induction p as [|a p IH]; intros [|b q]; simpl; try ring. rewrite IH. ring.
Qed.
Lemma peval_scal k p z : peval (pscal k p) z = Cmul k (peval p z).
Proof. unfold pscal. induction p; simpl; [ring|]. rewrite IHp. ring. Qed.
Lemma padd_length p q : length (padd p q) = Nat.max (length p) (length q).
Proof. revert q; induction p as [|a p IH]; intros [|b q]; simpl; auto. Qed.
Lemma padd_last p q : (length q < length p)%nat -> last (padd p q) C0 = last p C0.
Proof.
  revert q; induction p as [|a p IH]; intros [|b q] H; simpl in *; try lia; auto.
  destruct p as [|a' p]; [simpl in H; lia|]. rewrite <- (IH q) by (simpl in *; lia).
  simpl. destruct q; simpl; auto.
Qed.

Lemma synthetic p r : exists q, (forall z, (peval p z - peval p r = (z - r) * peval q z)%C) /\
  length q = Nat.pred (length p) /\ ((2 <= length p)%nat -> last q C0 = last p C0).
Proof.
  induction p as [|a t IH].
  - exists []. simpl. repeat split; try lia. intros; ring.
  - destruct IH as [q [E [L La]]]. exists (padd t (pscal r q)). split; [|split].
    + intros z. simpl. rewrite peval_add, peval_scal.
      transitivity ((z - r) * peval t z + r * (peval t z - peval t r))%C; [ring|]. rewrite E. ring.
    + rewrite padd_length. unfold pscal. rewrite map_length, L. simpl. lia.
    + intros Hl. simpl in Hl. rewrite padd_last.
      * destruct t; [simpl in Hl; lia|reflexivity].
      * unfold pscal. rewrite map_length, L. lia.
Qed.

(** A polynomial with as many distinct roots as its degree is the product of its factors. *)
Lemma factor_theorem p rs z : NoDup rs -> length p = S (length rs) ->
  (forall r, In r rs -> peval p r = C0) ->
  peval p z = Cmul (last p C0) (cprod (map (fun r => Csub z r) rs)).
Proof.
  revert p. induction rs as [|r rs IH]; intros p ND L HR.
  - destruct p as [|a [|b p]]; simpl in *; try lia. ring.
  - inversion ND; subst. destruct (synthetic p r) as [q [E [Lq La]]]. simpl in L.
    assert (Eq : forall y, peval p y = Cmul (Csub y r) (peval q y)).
    { intros y. rewrite <- E, (HR r) by (left; auto). ring. }
    rewrite Eq. cbn [map cprod]. rewrite (IH q); auto.
    + rewrite La by lia. ring.
    + rewrite Lq. lia.
    + intros r' Hr'. pose proof (HR r' (or_intror Hr')) as Z. rewrite Eq in Z. apply Cmul_eq0 in Z.
      destruct Z as [Z|Z]; auto. exfalso. assert (r' = r).
      { transitivity (r' - r + r)%C; [ring|]. rewrite Z. ring. }
      subst; contradiction.
Qed.

(** X^N + c. *)
Definition pxn (n : nat) (c : C) : list C :=
  match n with O => [Cadd C1 c] | S m => c :: repeat C0 m ++ [C1] end.
Lemma pxn_eval n c z : peval (pxn n c) z = Cadd (Cpow z n) c.
Proof.
  destruct n; [simpl; ring|]. cbn [pxn peval Cpow].
  assert (E : forall m, peval (repeat C0 m ++ [C1]) z = Cpow z m).
  { induction m; simpl; [ring|]. rewrite IHm. ring. }
  rewrite E. ring.
Qed.
Lemma pxn_length n c : length (pxn n c) = S n.
Proof. destruct n; auto. simpl. rewrite app_length, repeat_length. simpl. lia. Qed.
Lemma pxn_last n c : (0 < n)%nat -> last (pxn n c) C0 = C1.
Proof.
  destruct n; [lia|]. intros _. unfold pxn.
  change (c :: repeat C0 n ++ [C1]) with ((c :: repeat C0 n) ++ [C1]). apply last_last.
Qed.

(** Angles in [0, 2 pi) are determined by the point on the circle. *)
Lemma Cexp_inj s t : 0 <= s < 2 * PI -> 0 <= t < 2 * PI -> Cexp s = Cexp t -> s = t.
Proof.
  intros Hs Ht E. unfold Cexp in E. injection E as E1 E2.
  destruct (Rle_dec s PI) as [A|A]; destruct (Rle_dec t PI) as [B|B].
  - destruct (Rtotal_order s t) as [H|[H|H]]; auto; exfalso.
    + assert (cos t < cos s) by (apply cos_decreasing_1; lra). lra.
    + assert (cos s < cos t) by (apply cos_decreasing_1; lra). lra.
  - exfalso. assert (0 <= sin s) by (apply sin_ge_0; lra). assert (sin t < 0) by (apply sin_lt_0; lra). lra.
  - exfalso. assert (0 <= sin t) by (apply sin_ge_0; lra). assert (sin s < 0) by (apply sin_lt_0; lra). lra.
  - destruct (Rtotal_order s t) as [H|[H|H]]; auto; exfalso.
    + assert (cos s < cos t) by (apply cos_increasing_1; lra). lra.
    + assert (cos t < cos s) by (apply cos_increasing_1; lra). lra.
Qed.

(** z^N + 1 is the product over the odd multiples of pi/N. *)
Lemma xn_plus_1 N z : (0 < N)%nat ->
  Cadd (Cpow z N) C1 = cprod (map (fun k => Csub z (Cexp ((2 * INR k + 1) * PI / INR N))) (seq 0 N)).
Proof.
  intros HN. rewrite <- pxn_eval. assert (HN' : 0 < INR N) by (apply lt_0_INR; auto).
  rewrite (factor_theorem _ (map (fun k => Cexp ((2 * INR k + 1) * PI / INR N)) (seq 0 N))).
  - rewrite pxn_last by auto. rewrite map_map. ring.
  - assert (FI : forall l, NoDup l -> (forall k, In k l -> (k < N)%nat) ->
       NoDup (map (fun k => Cexp ((2 * INR k + 1) * PI / INR N)) l)).
    { induction 1; intros HB; simpl; constructor.
      - intros HI. apply in_map_iff in HI. destruct HI as [k [E HI]].
        assert (Hk : (k < N)%nat) by (apply HB; right; auto). assert (Hx : (x < N)%nat) by (apply HB; left; auto).
        apply Cexp_inj in E.
        + assert (INR k = INR x).
          { pose proof PI_RGT_0. apply (f_equal (fun t => t * INR N / PI)) in E.
            assert (X : 2 * INR k + 1 = 2 * INR x + 1).
            { transitivity ((2 * INR k + 1) * PI / INR N * INR N / PI); [field; lra|]. rewrite E. field. lra. }
            lra. }
          apply INR_eq in H1. subst. contradiction.
        + pose proof PI_RGT_0. pose proof (pos_INR k). apply lt_INR in Hk. split.
          * apply Rmult_le_pos; [nra|left; apply Rinv_0_lt_compat; auto].
          * apply (Rmult_lt_reg_r (INR N)); auto. unfold Rdiv. rewrite Rmult_assoc, Rinv_l by lra.
            assert (INR k + 1 <= INR N) by (rewrite <- S_INR; apply le_INR; apply INR_lt in Hk; lia). nra.
        + pose proof PI_RGT_0. pose proof (pos_INR x). apply lt_INR in Hx. split.
          * apply Rmult_le_pos; [nra|left; apply Rinv_0_lt_compat; auto].
          * apply (Rmult_lt_reg_r (INR N)); auto. unfold Rdiv. rewrite Rmult_assoc, Rinv_l by lra.
            assert (INR x + 1 <= INR N) by (rewrite <- S_INR; apply le_INR; apply INR_lt in Hx; lia). nra.
      - apply IHNoDup. intros; apply HB; right; auto. }
    apply FI; [apply seq_NoDup|]. intros k Hk. apply in_seq in Hk. lia.
  - rewrite pxn_length, map_length, seq_length. reflexivity.
  - intros r HI. apply in_map_iff in HI. destruct HI as [k [<- _]]. rewrite pxn_eval, Cexp_pow.
    replace (INR N * ((2 * INR k + 1) * PI / INR N)) with (2 * INR k * PI + PI) by (field; lra).
    rewrite Cexp_add, Cexp_2PI_n. unfold Cexp. rewrite cos_PI, sin_PI. apply C_eq; simpl; ring.
Qed.

(** ** Finite products of reals *)
Fixpoint prodf (f : nat -> R) (n : nat) : R := match n with O => 1 | S k => prodf f k * f k end.
Lemma prodf_ext f g n : (forall i, (i < n)%nat -> f i = g i) -> prodf f n = prodf g n.
Proof. induction n; intros H; simpl; auto. rewrite IHn, H by (intros; auto). reflexivity. Qed.
Lemma prodf_mult f g n : prodf (fun i => f i * g i) n = prodf f n * prodf g n.
Proof. induction n; simpl; [ring|]. rewrite IHn. ring. Qed.
Lemma prodf_S_l f n : prodf f (S n) = f O * prodf (fun i => f (S i)) n.
Proof. induction n; [simpl; ring|]. cbn [prodf] in *. rewrite IHn. ring. Qed.
Lemma prodf_app f n m : prodf f (n + m) = prodf f n * prodf (fun i => f (n + i)%nat) m.
Proof.
  induction m; [rewrite Nat.add_0_r; simpl; ring|]. rewrite Nat.add_succ_r. cbn [prodf]. rewrite IHm. ring.
Qed.
Lemma prodf_rev f n : prodf f n = prodf (fun i => f (n - 1 - i)%nat) n.
Proof.
  induction n; auto. rewrite prodf_S_l at 1. cbn [prodf].
  rewrite (prodf_S_l (fun i => f (S n - 1 - i)%nat)) || idtac.
  replace (prodf (fun i => f (S n - 1 - i)%nat) n * f (S n - 1 - n)%nat)
    with (prodf (fun i => f (S n - 1 - i)%nat) n * f O) by (do 2 f_equal; lia).
  rewrite Rmult_comm. f_equal.
  transitivity (prodf (fun i => f (S (n - 1 - i))) n).
  - clear IHn. revert f. induction n; intros f; auto.
    rewrite prodf_S_l. cbn [prodf]. rewrite (IHn (fun i => f (S i))).
    replace (S (S n - 1 - n))%nat with 1%nat by lia. rewrite Rmult_comm. f_equal.
    apply prodf_ext. intros i Hi. f_equal. lia.
  - apply prodf_ext. intros i Hi. f_equal. lia.
Qed.
(** Pairing factor k with factor n-1-k. *)
Lemma prodf_half f n : prodf f n =
  prodf (fun k => f k * f (n - 1 - k)%nat) (n / 2) * (if Nat.odd n then f (n / 2)%nat else 1).
Proof.
  assert (H : n = (n / 2 + ((if Nat.odd n then 1 else 0) + n / 2))%nat).
  { rewrite (Nat.div_mod n 2) at 1 by lia. rewrite <- Nat.bit0_mod. rewrite Nat.bit0_odd.
    destruct (Nat.odd n); simpl; lia. }
  set (h := (n / 2)%nat) in *. rewrite H at 1. rewrite !prodf_app.
  rewrite prodf_mult. rewrite (prodf_rev (fun i => f (h + _)%nat)) || idtac.
  destruct (Nat.odd n).
  - cbn [prodf]. rewrite (prodf_rev (fun i => f (h + (1 + i))%nat)). rewrite Nat.add_0_r.
    rewrite (prodf_ext (fun i => f (h + (1 + (h - 1 - i)))%nat) (fun k => f (n - 1 - k)%nat)).
    + ring.
    + intros i Hi. f_equal. lia.
  - cbn [prodf]. rewrite (prodf_rev (fun i => f (h + (0 + i))%nat)).
    rewrite (prodf_ext (fun i => f (h + (0 + (h - 1 - i)))%nat) (fun k => f (n - 1 - k)%nat)).
    + ring.
    + intros i Hi. f_equal. lia.
Qed.

Lemma cprod_app l m : cprod (l ++ m) = Cmul (cprod l) (cprod m).
Proof. induction l; simpl; [ring|]. rewrite IHl. ring. Qed.
Lemma Cnorm2_cprod_seq f n : Cnorm2 (cprod (map f (seq 0 n))) = prodf (fun k => Cnorm2 (f k)) n.
Proof.
  induction n; [simpl; unfold Cnorm2; simpl; ring|].
  rewrite seq_S, map_app, cprod_app, Cnorm2_mul, IHn. simpl. f_equal. f_equal. ring.
Qed.

(** The Butterworth polynomial: the product of the 2n squared distances. *)
Lemma Cpow_RtoC x n : Cpow (RtoC x) n = RtoC (x ^ n).
Proof. induction n; simpl; auto. rewrite IHn. apply C_eq; simpl; ring. Qed.

Definition thetak (n k : nat) : R := (2 * INR k + 1) * PI / INR (2 * n).

Lemma butter_product n x : (0 < n)%nat ->
  prodf (fun k => (x * x - 2 * x * cos (thetak n k) + 1) * (x * x + 2 * x * cos (thetak n k) + 1)) (n / 2)
  * (if Nat.odd n then x * x + 1 else 1) = 1 + x ^ (2 * n).
Proof.
  intros Hn. set (g := fun k => x * x - 2 * x * cos (thetak n k) + 1).
  assert (HN : 0 < INR (2 * n)) by (apply lt_0_INR; lia). pose proof PI_RGT_0 as HP.
  (* the product over n equals the square root of |x^{2n}+1|^2 *)
  assert (HG : forall k, g k = Cnorm2 (Csub (RtoC x) (Cexp (thetak n k)))).
  { intros k. unfold g, Cnorm2, Cexp; simpl. pose proof (sin2_cos2 (thetak n k)) as S. unfold Rsqr in S. nra. }
  assert (E2 : prodf g (2 * n) = (1 + x ^ (2 * n)) * (1 + x ^ (2 * n))).
  { rewrite (prodf_ext g (fun k => Cnorm2 (Csub (RtoC x) (Cexp ((2 * INR k + 1) * PI / INR (2 * n)))))) by (intros; apply HG).
    rewrite <- Cnorm2_cprod_seq. rewrite <- xn_plus_1 by lia. rewrite Cpow_RtoC. unfold Cnorm2; simpl. ring. }
  assert (Sy : forall k, (k < 2 * n)%nat -> g (2 * n - 1 - k)%nat = g k).
  { intros k Hk. unfold g. replace (thetak n (2 * n - 1 - k)) with (- thetak n k + 2 * INR 1 * PI).
    - rewrite cos_period, cos_neg. reflexivity.
    - unfold thetak. rewrite !minus_INR by lia. simpl (INR 1). field. lra. }
  rewrite prodf_half in E2. replace (Nat.odd (2 * n)) with false in E2 by (rewrite Nat.odd_mul; auto).
  replace (2 * n / 2)%nat with n in E2 by (rewrite Nat.mul_comm, Nat.div_mul; lia).
  rewrite (prodf_ext (fun k => g k * g (2 * n - 1 - k)%nat) (fun k => g k * g k)) in E2 by (intros i Hi; rewrite Sy by lia; auto).
  rewrite prodf_mult, Rmult_1_r in E2.
  assert (Pos : 0 <= prodf g n).
  { clear -HG. clearbody g. assert (X : forall m, 0 <= prodf g m); [|apply X]. induction m; simpl; [lra|]. apply Rmult_le_pos; auto. rewrite HG. apply Cnorm2_nonneg. }
  assert (Pos2 : 0 < 1 + x ^ (2 * n)).
  { rewrite pow_mult. assert (0 <= (x ^ 2) ^ n) by (apply pow_le; nra). lra. }
  assert (EP : prodf g n = 1 + x ^ (2 * n)) by nra.
  rewrite <- EP. rewrite (prodf_half g n). f_equal.
  - apply prodf_ext. intros k Hk. assert (k < n)%nat by (eapply Nat.lt_trans; [exact Hk|]; apply Nat.div_lt; lia).
    unfold g. f_equal. replace (thetak n (n - 1 - k)) with (- (thetak n k) + PI).
    + rewrite neg_cos, cos_neg. ring.
    + unfold thetak. rewrite !minus_INR by lia. rewrite mult_INR. simpl (INR 1). simpl (INR 2).
      rewrite mult_INR in HN. simpl (INR 2) in HN. field. lra.
  - destruct (Nat.odd n) eqn:O; auto. unfold g. replace (thetak n (n / 2)) with (PI / 2); [rewrite cos_PI2; ring|].
    unfold thetak. apply Nat.odd_spec in O. destruct O as [m ->].
    replace ((2 * m + 1) / 2)%nat with m by (rewrite Nat.add_comm, Nat.mul_comm, Nat.div_add by lia; reflexivity).
    rewrite mult_INR, plus_INR, mult_INR. simpl (INR 1). simpl (INR 2). pose proof (pos_INR m). field. lra.
Qed.
