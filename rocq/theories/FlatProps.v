(** Theorems C112, C113: spectral flatness and the median. *)
From Coq Require Import Permutation.
From Verif Require Import RealBase RealBaseProofs BaseProofs StatModel StatSpec StatProofs StatProps FeatModel FeatProofs.
Local Open Scope R_scope.
Local Open Scope res_scope.

(** ** C112 *)
Lemma ln_gap x a : 0 < x -> 0 < a -> x <> a -> ln x < x / a - 1 + ln a.
Proof.
  intros Hx Ha N. assert (Q : 0 < x / a) by (apply Rdiv_lt_0_compat; auto).
  assert (E : ln x = ln (x / a) + ln a) by (rewrite <- ln_mult by auto; f_equal; field; lra).
  rewrite E. assert (L : ln (x / a) <> 0).
  { intros Z. apply N. assert (X : x / a = 1) by (rewrite <- (exp_ln (x / a)) by auto; rewrite Z; apply exp_0).
    replace x with (x / a * a) by (field; lra). rewrite X. ring. }
  pose proof (exp_ineq1 _ L) as I. rewrite exp_ln in I by auto. lra.
Qed.
Lemma rsum_lt (f g : R -> R) l : (forall x, In x l -> f x <= g x) -> (exists x, In x l /\ f x < g x) -> rsum (map f l) < rsum (map g l).
Proof.
  induction l as [|y l IH]; intros H [x [I S]]; [destruct I|]. cbn [map rsum].
  assert (L : rsum (map f l) <= rsum (map g l)) by (apply rsum_le; intros z Hz; apply H; right; auto).
  pose proof (H y (or_introl eq_refl)). destruct I as [->|I]; [lra|].
  assert (rsum (map f l) < rsum (map g l)) by (apply IH; eauto; intros z Hz; apply H; right; auto). lra.
Qed.
Lemma average_pos l : l <> [] -> all_positive l -> 0 < average l.
Proof.
  intros H P. unfold average. apply Rdiv_lt_0_compat; [|apply len_pos; auto]. destruct l as [|x t]; [congruence|]. cbn [rsum].
  pose proof (P x (or_introl eq_refl)). assert (0 <= rsum t) by (apply rsum_nonneg; intros y Hy; apply Rlt_le, P; right; auto). lra.
Qed.
(** The geometric mean is strictly below the arithmetic mean unless all the samples agree. *)
Lemma am_gm_strict l : l <> [] -> all_positive l -> ~ is_constant l -> avf ln l < ln (average l).
Proof.
  intros H P NC. pose proof (len_pos l H) as N. pose proof (average_pos l H P) as A.
  assert (X : exists x, In x l /\ x <> average l).
  { destruct (Exists_dec (fun x => x <> average l) l) as [E|E].
    - intros x. destruct (Req_EM_T x (average l)); [right|left]; auto.
    - apply Exists_exists in E. exact E.
    - exfalso. apply NC. assert (Q : forall x, In x l -> x = average l).
      { intros x Hx. destruct (Req_EM_T x (average l)); auto. exfalso. apply E, Exists_exists. eauto. }
      intros x y Hx Hy. rewrite (Q x Hx), (Q y Hy). reflexivity. }
  unfold avf. apply Rmult_lt_reg_r with (INR (length l)); auto. unfold Rdiv at 1. rewrite Rmult_assoc, Rinv_l, Rmult_1_r by lra.
  apply Rlt_le_trans with (rsum (map (fun x => x / average l - 1 + ln (average l)) l)).
  - apply rsum_lt.
    + intros x Hx. destruct (Req_EM_T x (average l)) as [E|E]; [rewrite E; apply Req_le; field; lra|apply Rlt_le, ln_gap; auto].
    + destruct X as [x [Hx E]]. exists x. split; auto. apply ln_gap; auto.
  - apply Req_le. rewrite (rsum_map_ext (fun x => x / average l - 1 + ln (average l)) (fun x => / average l * x + (ln (average l) - 1))) by (intros; unfold Rdiv; ring).
    rewrite rsum_map_plus, rsum_map_const, (rsum_map_scal (/ average l) (fun x => x)), map_id.
    assert (I : / average l * rsum l = INR (length l)) by (unfold average; field; split; [lra|]; unfold average in A; intros Z; rewrite Z in A; unfold Rdiv in A; lra). rewrite I. ring.
Qed.
Lemma flatness_ok l : l <> [] -> all_positive l -> feat_flatness l = Ok (exp (avf ln l) / average l).
Proof.
  intros H P. unfold feat_flatness. rewrite geometric_ok, stat_mean_ok by auto. cbn [bind]. pose proof (average_pos l H P). rewrite rdiv_ok by lra. reflexivity.
Qed.
Lemma avf_const l : l <> [] -> all_positive l -> is_constant l -> exp (avf ln l) = average l.
Proof.
  intros H P HC. destruct l as [|x t]; [congruence|]. pose proof (len_pos (x :: t) H) as N.
  assert (Q : forall y, In y (x :: t) -> y = x) by (intros y Hy; apply HC; [auto|left; auto]).
  assert (E : average (x :: t) = x).
  { unfold average. assert (R : rsum (x :: t) = x * INR (length (x :: t))).
    { rewrite <- (map_id (x :: t)) at 1. rewrite (rsum_map_ext (fun y => y) (fun _ => x)) by (intros y Hy; apply Q; auto). rewrite rsum_map_const. ring. }
    rewrite R. field. lra. }
  rewrite E. unfold avf. rewrite (rsum_map_ext ln (fun _ => ln x)) by (intros y Hy; rewrite (Q y Hy); auto). rewrite rsum_map_const.
  replace (INR (length (x :: t)) * ln x / INR (length (x :: t))) with (ln x) by (field; lra). apply exp_ln. apply P. left. auto.
Qed.
(** The flatness of positive samples is their n-th root of the product over their mean; it lies in
    (0,1] and is 1 exactly for equal samples. *)
Theorem C112_flatness l : l <> [] -> all_positive l -> exists v g,
  feat_flatness l = Ok v /\ 0 < g /\ g ^ length l = rprodl l /\ v = g / average l /\
  0 < v <= 1 /\ (v = 1 <-> is_constant l).
Proof.
  intros H P. exists (exp (avf ln l) / average l), (exp (avf ln l)). pose proof (average_pos l H P) as A. pose proof (exp_pos (avf ln l)) as E.
  split; [apply flatness_ok; auto|]. split; auto. split; [apply geometric_prod; auto|]. split; [reflexivity|].
  assert (B : exp (avf ln l) <= average l) by (apply am_gm; auto).
  split; [split; [apply Rdiv_lt_0_compat; auto|]|].
  - apply Rmult_le_reg_r with (average l); auto. unfold Rdiv. rewrite Rmult_assoc, Rinv_l by lra. lra.
  - split.
    + intros V. destruct (Classical_Prop.classic (is_constant l)) as [C|C]; auto. exfalso. pose proof (am_gm_strict l H P C) as S.
      apply exp_increasing in S. rewrite exp_ln in S by auto. assert (exp (avf ln l) = average l); [|lra].
      replace (exp (avf ln l)) with (exp (avf ln l) / average l * average l) by (field; lra). rewrite V. ring.
    + intros C. rewrite avf_const by auto. field. lra.
Qed.
(** It does not depend on the level. *)
Theorem C112_flatness_scale l c : l <> [] -> all_positive l -> 0 < c -> feat_flatness (map (Rmult c) l) = feat_flatness l.
Proof.
  intros H P Hc. pose proof (len_pos l H) as N. pose proof (average_pos l H P) as A.
  assert (H' : map (Rmult c) l <> []) by (destruct l; [congruence|discriminate]).
  assert (P' : all_positive (map (Rmult c) l)) by (intros x Hx; apply in_map_iff in Hx as [y [<- Hy]]; apply Rmult_lt_0_compat; auto).
  rewrite !flatness_ok by auto. f_equal.
  assert (E1 : average (map (Rmult c) l) = c * average l).
  { unfold average. rewrite map_length. replace (rsum (map (Rmult c) l)) with (c * rsum l); [field; lra|].
    rewrite (rsum_map_scal c (fun x => x)), map_id. reflexivity. }
  assert (E2 : avf ln (map (Rmult c) l) = ln c + avf ln l).
  { unfold avf. rewrite map_length, map_map. rewrite (rsum_map_ext (fun x => ln (c * x)) (fun x => ln x + ln c)) by (intros x Hx; rewrite ln_mult by auto; ring).
    rewrite rsum_map_plus, rsum_map_const. field. lra. }
  rewrite E1, E2, exp_plus, exp_ln by auto. field. lra.
Qed.
(** A sample that is not positive has no finite logarithm, and an empty range no mean. *)
Theorem C112_outside_domain l : (l = [] \/ exists x, In x l /\ x <= 0) -> feat_flatness l = NonFinite.
Proof.
  intros [->|H]; unfold feat_flatness.
  - unfold stat_geometric_mean. cbn [accumulateM bind length]. change (INR 0) with 0. rewrite rdiv_zero. reflexivity.
  - rewrite C34_outside_domain by auto. reflexivity.
Qed.
Example C112_ex : feat_flatness [2; 8] = Ok (4 / 5) /\ ~ is_constant [2; 8].
Proof.
  split.
  - rewrite flatness_ok; [|discriminate|intros x [<-|[<-|[]]]; lra]. f_equal.
    assert (E : avf ln [2; 8] = ln 4).
    { unfold avf. cbn [map rsum length]. replace (INR 2) with 2 by (simpl; ring). replace 8 with (4 * 2) by lra. rewrite ln_mult by lra.
      assert (ln 4 = ln 2 + ln 2) by (rewrite <- ln_mult by lra; f_equal; lra). lra. }
    rewrite E, exp_ln by lra. unfold average. cbn [rsum length]. replace (INR 2) with 2 by (simpl; ring). field.
  - intros C. specialize (C 2 8 (or_introl eq_refl) (or_intror (or_introl eq_refl))). lra.
Qed.

(** ** C113 *)
(** Specification: sort the samples; the middle one, or the mean of the two middle ones. *)
Definition sorted_of (l s : list R) : Prop :=
  Permutation l s /\ forall i j x y, (i < j)%nat -> nth_error s i = Some x -> nth_error s j = Some y -> x <= y.
Definition median_of (l : list R) (m : R) : Prop := exists s, sorted_of l s /\
  ((exists k, length l = (2 * k + 1)%nat /\ nth_error s k = Some m) \/
   (exists k x y, length l = (2 * k + 2)%nat /\ nth_error s k = Some x /\ nth_error s (k + 1)%nat = Some y /\ m = (x + y) / 2)).
(** The function ignores its range and returns zero. *)
Theorem C113_median_actual l : stat_median l = Ok 0.
Proof. reflexivity. Qed.
(** So it is wrong whenever all the samples are on the same side of zero ... *)
Theorem C113_median_refuted l m : l <> [] -> (all_positive l \/ (forall x, In x l -> x < 0)) -> median_of l m -> stat_median l <> Ok m.
Proof.
  intros H P [s [[Hp _] M]] E. injection E as E.
  assert (I : forall i x, nth_error s i = Some x -> In x l) by (intros i x Hx; apply (Permutation_in x (Permutation_sym Hp)); eapply nth_error_In; eauto).
  destruct M as [[k [_ Hm]]|[k [x [y [_ [Hx [Hy Hm]]]]]]].
  - apply I in Hm. destruct P as [P|P]; specialize (P m Hm); lra.
  - apply I in Hx, Hy. destruct P as [P|P]; pose proof (P x Hx); pose proof (P y Hy); lra.
Qed.
(** ... and right only when the median happens to be zero. *)
Theorem C113_median_partial l m : median_of l m -> (stat_median l = Ok m <-> m = 0).
Proof. intros _. rewrite C113_median_actual. split; [intros E; injection E as ->; reflexivity|intros ->; reflexivity]. Qed.
Example C113_ex : median_of [3; 1; 2] 2 /\ median_of [4; 1; 2; 3] (5/2).
Proof.
  split.
  - exists [1; 2; 3]. split; [split|].
    + apply perm_trans with [1; 3; 2]; [apply perm_swap|]. apply perm_skip, perm_swap.
    + intros i j x y L X Y. assert (j < 3)%nat by (change 3%nat with (length [1;2;3]); apply nth_error_Some; congruence).
      destruct j as [|[|[|j]]]; try lia; destruct i as [|[|[|i]]]; try lia; cbn in X, Y; injection X as <-; injection Y as <-; lra.
    + left. exists 1%nat. split; reflexivity.
  - exists [1; 2; 3; 4]. split; [split|].
    + apply (Permutation_cons_app [1;2;3] []). apply Permutation_refl.
    + intros i j x y L X Y. assert (j < 4)%nat by (change 4%nat with (length [1;2;3;4]); apply nth_error_Some; congruence).
      destruct j as [|[|[|[|j]]]]; try lia; destruct i as [|[|[|[|i]]]]; try lia; cbn in X, Y; injection X as <-; injection Y as <-; lra.
    + right. exists 1%nat, 2, 3. repeat split. lra.
Qed.
Print Assumptions C112_flatness.
Print Assumptions C112_flatness_scale.
Print Assumptions C112_outside_domain.
Print Assumptions C113_median_actual.
Print Assumptions C113_median_refuted.
Print Assumptions C113_median_partial.
