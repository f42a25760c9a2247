From Verif Require Import RealBase BaseProofs.
Local Open Scope R_scope.

Lemma rdiv_ok a b : b <> 0 -> rdiv a b = Ok (a / b).
Proof. intros H; unfold rdiv; destruct (Req_EM_T b 0); [contradiction|reflexivity]. Qed.
Lemma rdiv_zero a : rdiv a 0 = NonFinite.
Proof. unfold rdiv; destruct (Req_EM_T 0 0); [reflexivity|lra]. Qed.
Lemma rdiv_Ok_inv a b c : rdiv a b = Ok c -> b <> 0 /\ c = a / b.
Proof. unfold rdiv; destruct (Req_EM_T b 0); intros H; [discriminate|]. inversion H; auto. Qed.
Lemma rsqrt_ok a : 0 <= a -> rsqrt a = Ok (sqrt a).
Proof. intros H; unfold rsqrt; destruct (Rlt_dec a 0); [lra|reflexivity]. Qed.
Lemma rlog_ok a : 0 < a -> rlog a = Ok (ln a).
Proof. intros H; unfold rlog; destruct (Rlt_dec 0 a); [reflexivity|contradiction]. Qed.

Lemma INR_pos n : (0 < n)%nat -> 0 < INR n.
Proof. intros; apply lt_0_INR; lia. Qed.
Lemma INR_neq0 n : (0 < n)%nat -> INR n <> 0.
Proof. intros H; pose proof (INR_pos n H); lra. Qed.
#[export] Hint Resolve INR_pos INR_neq0 : core.

Lemma rsum_app l l' : rsum (l ++ l') = rsum l + rsum l'.
Proof. induction l as [|x l IH]; simpl; [lra|rewrite IH; lra]. Qed.
Lemma rsum_repeat v n : rsum (repeat v n) = INR n * v.
Proof. induction n as [|n IH]; [simpl; lra|]. rewrite S_INR. cbn [repeat rsum]. rewrite IH; lra. Qed.
Lemma rsum_map_plus {A} (f g : A -> R) l : rsum (map (fun x => f x + g x) l) = rsum (map f l) + rsum (map g l).
Proof. induction l as [|x l IH]; simpl; [lra|rewrite IH; lra]. Qed.
Lemma rsum_map_scal {A} c (f : A -> R) l : rsum (map (fun x => c * f x) l) = c * rsum (map f l).
Proof. induction l as [|x l IH]; simpl; [lra|rewrite IH; lra]. Qed.
Lemma rsum_map_const {A} c (l : list A) : rsum (map (fun _ => c) l) = INR (length l) * c.
Proof. induction l as [|x l IH]; [simpl; lra|]. cbn [map rsum length]. rewrite S_INR, IH; lra. Qed.
Lemma rsum_map_ext {A} (f g : A -> R) l : (forall x, In x l -> f x = g x) -> rsum (map f l) = rsum (map g l).
Proof. intros H. f_equal. apply map_ext_in; exact H. Qed.
Lemma rsum_nonneg l : (forall x, In x l -> 0 <= x) -> 0 <= rsum l.
Proof.
  induction l as [|x l IH]; simpl; intros H; [lra|].
  pose proof (H x (or_introl eq_refl)). assert (0 <= rsum l) by (apply IH; intros; apply H; auto). lra.
Qed.
Lemma rsum_le {A} (f g : A -> R) l : (forall x, In x l -> f x <= g x) -> rsum (map f l) <= rsum (map g l).
Proof.
  induction l as [|x l IH]; simpl; intros H; [lra|].
  pose proof (H x (or_introl eq_refl)). assert (rsum (map f l) <= rsum (map g l)) by (apply IH; intros; apply H; auto). lra.
Qed.
Lemma accumulate_plus (f : R -> R) l a : accumulate (fun acc x => acc + f x) a l = a + rsum (map f l).
Proof.
  unfold accumulate. revert a; induction l as [|x l IH]; intros a; simpl; [lra|]. rewrite IH; lra.
Qed.
Lemma accumulate_Rplus l a : accumulate Rplus a l = a + rsum l.
Proof.
  unfold accumulate. revert a; induction l as [|x l IH]; intros a; simpl; [lra|]. rewrite IH; lra.
Qed.

Lemma sumf_ext f g n : (forall i, (i < n)%nat -> f i = g i) -> sumf f n = sumf g n.
Proof. induction n as [|n IH]; simpl; intros H; [reflexivity|]. rewrite IH, H by (intros; try apply H; lia). reflexivity. Qed.
Lemma sumf_plus f g n : sumf (fun i => f i + g i) n = sumf f n + sumf g n.
Proof. induction n as [|n IH]; simpl; [lra|rewrite IH; lra]. Qed.
Lemma sumf_minus f g n : sumf (fun i => f i - g i) n = sumf f n - sumf g n.
Proof. induction n as [|n IH]; simpl; [lra|rewrite IH; lra]. Qed.
Lemma sumf_scal c f n : sumf (fun i => c * f i) n = c * sumf f n.
Proof. induction n as [|n IH]; simpl; [lra|rewrite IH; lra]. Qed.
Lemma sumf_scal_r c f n : sumf (fun i => f i * c) n = sumf f n * c.
Proof. induction n as [|n IH]; simpl; [lra|rewrite IH; lra]. Qed.
Lemma sumf_const c n : sumf (fun _ => c) n = INR n * c.
Proof. induction n as [|n IH]; [simpl; lra|]. rewrite S_INR. cbn [sumf]. rewrite IH; lra. Qed.
Lemma sumf_zero n : sumf (fun _ => 0) n = 0.
Proof. rewrite sumf_const; lra. Qed.
Lemma sumf_S_l f n : sumf f (S n) = f O + sumf (fun i => f (S i)) n.
Proof. induction n as [|n IH]; [simpl; lra|]. cbn [sumf] in *. rewrite IH. lra. Qed.
Lemma sumf_app f n m : sumf f (n + m) = sumf f n + sumf (fun i => f (n + i)%nat) m.
Proof.
  induction m as [|m IH]; simpl; [rewrite Nat.add_0_r; lra|].
  rewrite Nat.add_succ_r; simpl. rewrite IH; lra.
Qed.
Lemma sumf_rev f n : sumf f n = sumf (fun i => f (n - 1 - i)%nat) n.
Proof.
  induction n as [|n IH]; [reflexivity|].
  rewrite sumf_S_l with (f := fun i => f (S n - 1 - i)%nat).
  cbn [sumf]. rewrite IH. rewrite Rplus_comm. f_equal; [f_equal; lia|].
  apply sumf_ext; intros i Hi; f_equal; lia.
Qed.
Lemma sumf_le f g n : (forall i, (i < n)%nat -> f i <= g i) -> sumf f n <= sumf g n.
Proof.
  induction n as [|n IH]; simpl; intros H; [lra|].
  pose proof (H n ltac:(lia)). assert (sumf f n <= sumf g n) by (apply IH; intros; apply H; lia). lra.
Qed.
Lemma sumf_nonneg f n : (forall i, (i < n)%nat -> 0 <= f i) -> 0 <= sumf f n.
Proof. intros H. rewrite <- (sumf_zero n). apply sumf_le; exact H. Qed.
Lemma sumf_swap (f : nat -> nat -> R) n m :
  sumf (fun i => sumf (f i) m) n = sumf (fun j => sumf (fun i => f i j) n) m.
Proof.
  induction n as [|n IH]; simpl; [rewrite sumf_zero; reflexivity|].
  rewrite IH, <- sumf_plus. reflexivity.
Qed.
Lemma sumf_single f n k : (k < n)%nat -> (forall i, (i < n)%nat -> i <> k -> f i = 0) -> sumf f n = f k.
Proof.
  intros Hk H. induction n as [|n IH]; [lia|]. simpl.
  destruct (Nat.eq_dec k n) as [->|Hne].
  - rewrite (sumf_ext f (fun _ => 0)) by (intros i Hi; apply H; lia). rewrite sumf_zero; lra.
  - rewrite IH by (try lia; intros; apply H; lia). rewrite (H n) by lia. lra.
Qed.
Lemma sumf_abs f n : Rabs (sumf f n) <= sumf (fun i => Rabs (f i)) n.
Proof.
  induction n as [|n IH]; simpl; [rewrite Rabs_R0; lra|].
  eapply Rle_trans; [apply Rabs_triang|]. lra.
Qed.
Lemma rsum_sumf l : rsum l = sumf (fun i => nth i l 0) (length l).
Proof.
  induction l as [|x l IH]; [reflexivity|].
  cbn [length]. rewrite sumf_S_l. simpl. rewrite IH. reflexivity.
Qed.
Lemma sumf_rsum f n : sumf f n = rsum (map f (seq 0 n)).
Proof.
  induction n as [|n IH]; [reflexivity|].
  rewrite seq_S, map_app, rsum_app. simpl. rewrite IH. lra.
Qed.
