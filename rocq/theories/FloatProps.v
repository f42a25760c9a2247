(** Properties of the sample arithmetic in IEEE formats. *)
From Coq Require Import ZArith Reals List Bool Lia Lra Psatz.
From Flocq Require Import Core BinarySingleNaN.
From Verif Require Import Base FloatModel FloatSpec FloatProofs.
Import ListNotations.
Local Open Scope R_scope.

Section Format.
Context (prec emax : Z) {Hprec : Prec_gt_0 prec} {Hmax : Prec_lt_emax prec emax}.
Notation fl := (binary_float prec emax).
Notation rnd := (round radix2 (FLT_exp (3 - emax - prec) prec) ZnearestE).
Notation fmt := (generic_format radix2 (FLT_exp (3 - emax - prec) prec)).
Notation val := (@B2R prec emax).
Notation add := (fadd prec emax).
Notation u := (roundoff prec).

Lemma roundoff_u : u = unit_roundoff prec.
Proof.
  unfold roundoff, unit_roundoff. rewrite bpow_opp. f_equal. apply (IZR_Zpower radix2). pose proof Hprec as P. unfold Prec_gt_0 in P. lia.
Qed.
Lemma smallest_tiny : smallest prec emax = tiny prec emax.
Proof.
  unfold smallest, tiny. replace (3 - emax - prec)%Z with (- (emax + prec - 3))%Z by lia. rewrite bpow_opp. f_equal. apply (IZR_Zpower radix2).
  pose proof Hprec as P. pose proof Hmax as M. unfold Prec_gt_0, Prec_lt_emax in *. lia.
Qed.
Lemma roundoff_pos : 0 < u. Proof. rewrite roundoff_u. apply u_pos. Qed.

(** C115: the error of the sum. *)
Lemma abs_total_pos (l : list fl) : 0 <= abs_total l.
Proof. induction l as [|x l IH]; cbn; [lra|]. pose proof (Rabs_pos (val x)). unfold abs_total in IH. lra. Qed.
Lemma total_abs (l : list fl) : Rabs (total l) <= abs_total l.
Proof. induction l as [|x l IH]; cbn; [rewrite Rabs_R0; lra|]. eapply Rle_trans; [apply Rabs_triang|]. unfold total, abs_total in IH. lra. Qed.
Lemma total_app (l : list fl) x : total (l ++ [x]) = total l + val x.
Proof. induction l as [|y l IH]; cbn; [lra|]. unfold total in IH. rewrite IH. lra. Qed.
Lemma abs_total_app (l : list fl) x : abs_total (l ++ [x]) = abs_total l + Rabs (val x).
Proof. induction l as [|y l IH]; cbn; [lra|]. unfold abs_total in IH. rewrite IH. lra. Qed.
Lemma pow_ge_1 n : 1 <= (1 + u) ^ n.
Proof. apply pow_R1_Rle. pose proof roundoff_pos. lra. Qed.
Lemma sum_snoc l x : f_sum prec emax (l ++ [x]) = add (f_sum prec emax l) x.
Proof. unfold f_sum. apply fold_left_app. Qed.
Lemma sum_error l : finite (f_sum prec emax l) ->
  all_finite l /\ Rabs (val (f_sum prec emax l) - total l) <= ((1 + u) ^ (length l - 1) - 1) * abs_total l.
Proof.
  induction l as [|x l IH] using rev_ind; intros F.
  - split; [constructor|]. cbn. rewrite Rminus_0_r, Rabs_R0. lra.
  - rewrite sum_snoc in *. destruct (add_fin prec emax _ _ F) as [F1 [F2 V]]. destruct (IH F1) as [A E]. split; [apply Forall_app; split; auto|].
    rewrite V, total_app, abs_total_app, app_length. cbn [length]. rewrite Nat.add_sub.
    destruct l as [|y l].
    + change (val (f_sum prec emax [])) with 0. change (total (@nil fl)) with 0. change (abs_total (@nil fl)) with 0. cbn [length pow].
      rewrite Rplus_0_l, (rnd_id prec emax) by apply (fmt_val prec emax). replace (val x - val x) with 0 by ring. rewrite Rabs_R0. lra.
    + remember (y :: l) as m. assert (L : (length m = S (length m - 1))%nat) by (subst; cbn; lia).
      set (s := val (f_sum prec emax m)) in *. set (k := (length m - 1)%nat) in *. rewrite L. cbn [pow].
      pose proof (add_err prec emax s (val x) (fmt_val prec emax _) (fmt_val prec emax _)) as D. rewrite <- roundoff_u in D.
      pose proof (abs_total_pos m) as P. pose proof (total_abs m) as T. pose proof (pow_ge_1 k) as K. pose proof roundoff_pos as U. pose proof (Rabs_pos (val x)) as X.
      assert (S1 : Rabs (s + val x) <= (1 + u) ^ k * abs_total m + Rabs (val x)).
      { replace (s + val x) with ((s - total m) + (total m + val x)) by ring. eapply Rle_trans; [apply Rabs_triang|]. pose proof (Rabs_triang (total m) (val x)). lra. }
      replace (rnd (s + val x) - (total m + val x)) with ((rnd (s + val x) - (s + val x)) + (s - total m)) by ring.
      eapply Rle_trans; [apply Rabs_triang|]. eapply Rle_trans; [apply Rplus_le_compat; [exact D|exact E]|].
      assert (u * Rabs (s + val x) <= u * ((1 + u) ^ k * abs_total m + Rabs (val x))) by (apply Rmult_le_compat_l; lra).
      assert (0 <= ((1 + u) ^ k - 1) * Rabs (val x)) by (apply Rmult_le_pos; lra).
      assert (0 <= u * (((1 + u) ^ k - 1) * Rabs (val x))) by (apply Rmult_le_pos; lra). nra.
Qed.

(** The computed sum of a range is within ((1+u)^(n-1) - 1) times the sum of the magnitudes of the
    exact sum whenever it did not overflow, and then every element was finite. *)
Theorem C115_sum_error l : finite (f_sum prec emax l) ->
  all_finite l /\ Rabs (val (f_sum prec emax l) - total l) <= ((1 + u) ^ (length l - 1) - 1) * abs_total l.
Proof. exact (sum_error l). Qed.
(** The mean: one more rounding, and half the smallest number when the quotient underflows. *)
Theorem C115_mean_error l : (0 < length l)%nat -> (Z.of_nat (length l) <= 2 ^ prec)%Z -> finite (f_mean prec emax l) ->
  all_finite l /\
  Rabs (val (f_mean prec emax l) - total l / INR (length l)) <=
    ((1 + u) ^ length l - 1) * (abs_total l / INR (length l)) + smallest prec emax / 2.
Proof.
  intros N B F. destruct (of_nat_exact prec emax _ B) as [Fn Vn]. unfold f_mean in *.
  destruct (div_fin prec emax _ _ Fn F) as [Fs [_ V]]. destruct (sum_error l Fs) as [A E]. split; [exact A|]. rewrite V, Vn.
  set (s := val (f_sum prec emax l)) in *. set (n := length l) in *. assert (P : 0 < INR n) by (apply lt_0_INR; exact N).
  pose proof (rnd_err prec emax (s / INR n)) as D. rewrite <- roundoff_u, <- smallest_tiny in D.
  pose proof (abs_total_pos l) as Q. pose proof (total_abs l) as T. pose proof (pow_ge_1 (n - 1)) as K. pose proof roundoff_pos as U.
  replace n with (S (n - 1)) at 3 by lia. cbn [pow].
  assert (S1 : Rabs s <= (1 + u) ^ (n - 1) * abs_total l).
  { replace s with ((s - total l) + total l) by ring. eapply Rle_trans; [apply Rabs_triang|]. lra. }
  assert (D1 : forall z, Rabs (z / INR n) = Rabs z / INR n).
  { intros z. unfold Rdiv. rewrite Rabs_mult, (Rabs_right (/ INR n)); auto. left. apply Rinv_0_lt_compat; auto. }
  replace (rnd (s / INR n) - total l / INR n) with ((rnd (s / INR n) - s / INR n) + (s - total l) / INR n) by (field; lra).
  eapply Rle_trans; [apply Rabs_triang|]. rewrite D1. rewrite D1 in D.
  assert (I : 0 < / INR n) by (apply Rinv_0_lt_compat; auto). unfold Rdiv in *.
  assert (Rabs s * / INR n <= (1 + u) ^ (n - 1) * abs_total l * / INR n) by (apply Rmult_le_compat_r; lra).
  assert (Rabs (s - total l) * / INR n <= ((1 + u) ^ (n - 1) - 1) * abs_total l * / INR n) by (apply Rmult_le_compat_r; lra).
  assert (u * (Rabs s * / INR n) <= u * ((1 + u) ^ (n - 1) * abs_total l * / INR n)) by (apply Rmult_le_compat_l; lra).
  nra.
Qed.
Lemma rnd_abs_le x y : fmt x -> fmt y -> Rabs (rnd (x + y)) <= (1 + u) * Rabs (x + y).
Proof.
  intros A B. pose proof (add_err prec emax x y A B) as D. rewrite <- roundoff_u in D.
  replace (rnd (x + y)) with ((rnd (x + y) - (x + y)) + (x + y)) by ring. eapply Rle_trans; [apply Rabs_triang|]. lra.
Qed.
Lemma total_le_app (l : list fl) x : abs_total l <= abs_total (l ++ [x]).
Proof. rewrite abs_total_app. pose proof (Rabs_pos (val x)). lra. Qed.
(** The sum overflows only when the magnitudes add up to the top of the range. *)
Theorem C115_sum_finite l : all_finite l -> (1 + u) ^ length l * abs_total l < IZR (2 ^ emax) -> finite (f_sum prec emax l).
Proof.
  assert (PE : IZR (2 ^ emax) = bpow radix2 emax).
  { apply (IZR_Zpower radix2). pose proof Hprec as P. pose proof Hmax as M. unfold Prec_gt_0, Prec_lt_emax in *. lia. }
  rewrite PE. induction l as [|x l IH] using rev_ind; intros A B; [reflexivity|].
  apply Forall_app in A. destruct A as [A X]. inversion X as [|? ? Fx _]; subst.
  pose proof (total_le_app l x) as T. pose proof (pow_ge_1 (length l)) as K. pose proof roundoff_pos as U. pose proof (abs_total_pos l) as P.
  rewrite app_length in B. cbn [length] in B. rewrite Nat.add_1_r in B. cbn [pow] in B.
  assert (H1 : (1 + u) ^ length l * abs_total (l ++ [x]) < bpow radix2 emax).
  { eapply Rle_lt_trans; [|exact B]. pose proof (abs_total_pos (l ++ [x])). assert (0 <= (1 + u) ^ length l * abs_total (l ++ [x])) by (apply Rmult_le_pos; lra). nra. }
  assert (Fl : finite (f_sum prec emax l)).
  { apply IH; auto. eapply Rle_lt_trans; [|exact H1]. apply Rmult_le_compat_l; lra. }
  rewrite sum_snoc. destruct (add_cases prec emax _ _ Fl Fx) as [[_ [_ F]]|[O _]]; [exact F|exfalso].
  destruct (sum_error l Fl) as [_ E]. set (s := val (f_sum prec emax l)) in *.
  pose proof (rnd_abs_le s (val x) (fmt_val prec emax _) (fmt_val prec emax _)) as D.
  assert (S1 : Rabs (s + val x) <= (1 + u) ^ length l * abs_total (l ++ [x])).
  { rewrite abs_total_app. pose proof (Rabs_pos (val x)) as Q. pose proof (total_abs l) as T2.
    assert (M : (1 + u) ^ (length l - 1) <= (1 + u) ^ length l) by (apply Rle_pow; lia || lra).
    assert (M2 : ((1 + u) ^ (length l - 1) - 1) * abs_total l <= ((1 + u) ^ length l - 1) * abs_total l) by (apply Rmult_le_compat_r; lra).
    replace (s + val x) with ((s - total l) + (total l + val x)) by ring. eapply Rle_trans; [apply Rabs_triang|]. pose proof (Rabs_triang (total l) (val x)). nra. }
  assert ((1 + u) * Rabs (s + val x) <= (1 + u) * ((1 + u) ^ length l * abs_total (l ++ [x]))) by (apply Rmult_le_compat_l; lra).
  lra.
Qed.
End Format.

(** Examples use doubles written as quotients of integers. *)
Definition dbl (n : Z) : double := of_Z 53 1024 n.
Definition ratio (n d : Z) : double := fdiv 53 1024 (dbl n) (dbl d).
Definition sgl (n : Z) : float := of_Z 24 128 n.
Definition sratio (n d : Z) : float := fdiv 24 128 (sgl n) (sgl d).
Definition top : double := dbl (2 ^ 1023 + (2 ^ 1023 - 2 ^ 971)).

(** The mean of equal elements can exceed all of them. *)
Theorem C115_mean_between_refuted :
  ~ (forall l : list double, l <> [] -> all_finite l -> exists x, In x l /\ le (f_mean 53 1024 l) x).
Proof.
  intros H. destruct (H [ratio 1 10; ratio 1 10; ratio 1 10]) as [x [I L]]; [discriminate|repeat constructor|].
  assert (E : x = ratio 1 10) by (destruct I as [I|[I|[I|[]]]]; auto). subst x. vm_compute in L. discriminate L.
Qed.
(** The mean of two large numbers is infinite. *)
Theorem C115_mean_finite_refuted : ~ (forall l : list double, l <> [] -> all_finite l -> finite (f_mean 53 1024 l)).
Proof. intros H. specialize (H [top; top] ltac:(discriminate) ltac:(repeat constructor)). vm_compute in H. discriminate H. Qed.
Example C115_example : let l := [ratio 1 10; ratio (-7) 3; ratio 22 7] in
  finite (f_mean 53 1024 l) /\ finite (f_sum 53 1024 l) /\ (0 < length l)%nat /\ (Z.of_nat (length l) <= 2 ^ 53)%Z.
Proof. repeat split; vm_compute; auto; discriminate. Qed.
Print Assumptions C115_sum_error.
Print Assumptions C115_mean_error.
Print Assumptions C115_sum_finite.
Print Assumptions C115_mean_between_refuted.
Print Assumptions C115_mean_finite_refuted.
