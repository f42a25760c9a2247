From Verif Require Import BaseProofs RealBase RealBaseProofs StatModel StatSpec.
Local Open Scope R_scope.

Lemma len_pos {A} (l : list A) : l <> [] -> 0 < INR (length l).
Proof. intros H. apply lt_0_INR. destruct l; [contradiction|simpl; lia]. Qed.
Lemma len_neq0 {A} (l : list A) : l <> [] -> INR (length l) <> 0.
Proof. intros H. pose proof (len_pos l H). lra. Qed.

(** ** Extremes *)
Lemma max_scan_spec key l : forall pre bi b i, i = length pre -> nth_error pre bi = Some b ->
  (forall x, In x pre -> key x <= key b) -> (forall j x, (j < bi)%nat -> nth_error pre j = Some x -> key x < key b) ->
  let r := max_scan key bi b i l in
  nth_error (pre ++ l) (fst r) = Some (snd r) /\ (forall x, In x (pre ++ l) -> key x <= key (snd r)) /\
  (forall j x, (j < fst r)%nat -> nth_error (pre ++ l) j = Some x -> key x < key (snd r)).
Proof.
  induction l as [|y l IH]; intros pre bi b i Hi Hb Hm Hf; cbn [max_scan].
  - rewrite app_nil_r. cbn. auto.
  - replace (pre ++ y :: l) with ((pre ++ [y]) ++ l) by (rewrite <- app_assoc; reflexivity).
    destruct (Rlt_dec (key b) (key y)) as [H|H]; cbn zeta; apply IH.
    + rewrite app_length. simpl. lia.
    + subst i. rewrite nth_error_app2 by lia. rewrite Nat.sub_diag. reflexivity.
    + intros x Hx. apply in_app_or in Hx as [Hx|[<-|[]]]; [|lra]. pose proof (Hm x Hx). lra.
    + intros j x Hj Hx. subst i. rewrite nth_error_app1 in Hx by lia. apply nth_error_In in Hx. pose proof (Hm x Hx). lra.
    + rewrite app_length. simpl. lia.
    + rewrite nth_error_app1; auto. apply nth_error_Some. congruence.
    + intros x Hx. apply in_app_or in Hx as [Hx|[<-|[]]]; [auto|lra].
    + intros j x Hj Hx. assert (nth_error pre bi <> None) by congruence. apply nth_error_Some in H0.
      rewrite nth_error_app1 in Hx by lia. eauto.
Qed.
Lemma min_scan_max key l : forall bi b i, min_scan key bi b i l = max_scan (fun x => - key x) bi b i l.
Proof.
  induction l as [|y l IH]; intros; cbn [min_scan max_scan]; auto.
  destruct (Rlt_dec (key y) (key b)), (Rlt_dec (- key b) (- key y)); auto; lra.
Qed.

Lemma max_element_spec key l : l <> [] -> exists i v, max_element key l = Ok (i, v) /\
  nth_error l i = Some v /\ (forall x, In x l -> key x <= key v) /\ (forall j x, (j < i)%nat -> nth_error l j = Some x -> key x < key v).
Proof.
  destruct l as [|y l]; [contradiction|]. intros _. cbn [max_element].
  destruct (max_scan_spec key l [y] 0 y 1 eq_refl eq_refl) as [A [B C]].
  - intros x [<-|[]]. lra.
  - intros; lia.
  - destruct (max_scan key 0 y 1 l) as [i v] eqn:E. exists i, v. auto.
Qed.
Lemma min_element_spec key l : l <> [] -> exists i v, min_element key l = Ok (i, v) /\
  nth_error l i = Some v /\ (forall x, In x l -> key v <= key x) /\ (forall j x, (j < i)%nat -> nth_error l j = Some x -> key v < key x).
Proof.
  intros H. destruct (max_element_spec (fun x => - key x) l H) as [i [v [E [A [B C]]]]]. exists i, v. split.
  - destruct l; [contradiction|]. cbn [min_element max_element] in *. rewrite min_scan_max. exact E.
  - split; auto. split; intros x Hx; [pose proof (B x Hx); lra|]. intros Hj Hn. pose proof (C x Hx Hj Hn). lra.
Qed.

Lemma stat_max_ok l : l <> [] -> exists m, stat_max l = Ok m /\ is_max l m.
Proof.
  intros H. destruct (max_element_spec idk l H) as [i [v [E [A [B _]]]]]. exists v. unfold stat_max, rmap. rewrite E. split; auto.
  split; [eapply nth_error_In; eauto|exact B].
Qed.
Lemma stat_min_ok l : l <> [] -> exists m, stat_min l = Ok m /\ is_min l m.
Proof.
  intros H. destruct (min_element_spec idk l H) as [i [v [E [A [B _]]]]]. exists v. unfold stat_min, rmap. rewrite E. split; auto.
  split; [eapply nth_error_In; eauto|exact B].
Qed.
Lemma stat_maxabs_ok l : l <> [] -> exists m, stat_maxabs l = Ok m /\ is_max (map Rabs l) m.
Proof.
  intros H. destruct (max_element_spec Rabs l H) as [i [v [E [A [B _]]]]]. exists (Rabs v). unfold stat_maxabs, rmap. rewrite E. split; auto.
  split; [apply in_map; eapply nth_error_In; eauto|]. intros x Hx. apply in_map_iff in Hx as [y [<- Hy]]. auto.
Qed.
Lemma stat_minabs_ok l : l <> [] -> exists m, stat_minabs l = Ok m /\ is_min (map Rabs l) m.
Proof.
  intros H. destruct (min_element_spec Rabs l H) as [i [v [E [A [B _]]]]]. exists (Rabs v). unfold stat_minabs, rmap. rewrite E. split; auto.
  split; [apply in_map; eapply nth_error_In; eauto|]. intros x Hx. apply in_map_iff in Hx as [y [<- Hy]]. auto.
Qed.
Lemma is_max_unique l m m' : is_max l m -> is_max l m' -> m = m'.
Proof. intros [A B] [C D]. pose proof (B _ C). pose proof (D _ A). lra. Qed.
Lemma is_min_unique l m m' : is_min l m -> is_min l m' -> m = m'.
Proof. intros [A B] [C D]. pose proof (B _ C). pose proof (D _ A). lra. Qed.

(** ** Mean *)
Lemma stat_mean_ok l : l <> [] -> stat_mean l = Ok (average l).
Proof. intros H. unfold stat_mean. rewrite rdiv_ok by (apply len_neq0; auto). rewrite accumulate_Rplus, Rplus_0_l. reflexivity. Qed.
Lemma stat_mean_nil : stat_mean [] = NonFinite.
Proof. unfold stat_mean. simpl. apply rdiv_zero. Qed.

Lemma rsum_bounds l lo hi : (forall x, In x l -> lo <= x <= hi) -> INR (length l) * lo <= rsum l <= INR (length l) * hi.
Proof.
  intros H. induction l as [|x l IH]; [simpl; lra|]. cbn [rsum length]. rewrite S_INR.
  pose proof (H x (or_introl eq_refl)). assert (INR (length l) * lo <= rsum l <= INR (length l) * hi) by (apply IH; intros; apply H; right; auto). lra.
Qed.
Lemma average_bounds l lo hi : l <> [] -> (forall x, In x l -> lo <= x <= hi) -> lo <= average l <= hi.
Proof.
  intros Hl H. pose proof (rsum_bounds l lo hi H). pose proof (len_pos l Hl). unfold average. split.
  - apply (Rmult_le_reg_r (INR (length l))); auto. unfold Rdiv. rewrite Rmult_assoc, Rinv_l by lra. lra.
  - apply (Rmult_le_reg_r (INR (length l))); auto. unfold Rdiv. rewrite Rmult_assoc, Rinv_l by lra. lra.
Qed.

(** Linearity of averages of functions over one list. *)
Definition avf {A} (f : A -> R) (l : list A) : R := rsum (map f l) / INR (length l).
Lemma average_map {A} (f : A -> R) (l : list A) : average (map f l) = avf f l.
Proof. unfold average, avf. rewrite map_length. reflexivity. Qed.
Lemma avf_plus {A} (f g : A -> R) l : avf (fun x => f x + g x) l = avf f l + avf g l.
Proof. unfold avf. rewrite rsum_map_plus. unfold Rdiv. ring. Qed.
Lemma avf_scal {A} c (f : A -> R) l : avf (fun x => c * f x) l = c * avf f l.
Proof. unfold avf. rewrite rsum_map_scal. unfold Rdiv. ring. Qed.
Lemma avf_const {A} c (l : list A) : l <> [] -> avf (fun _ => c) l = c.
Proof. intros H. unfold avf. rewrite rsum_map_const. field. apply len_neq0; auto. Qed.
Lemma avf_ext {A} (f g : A -> R) l : (forall x, In x l -> f x = g x) -> avf f l = avf g l.
Proof. intros H. unfold avf. rewrite (rsum_map_ext f g l H). reflexivity. Qed.
Lemma avf_le {A} (f g : A -> R) l : l <> [] -> (forall x, In x l -> f x <= g x) -> avf f l <= avf g l.
Proof.
  intros Hl H. unfold avf, Rdiv. apply Rmult_le_compat_r; [left; apply Rinv_0_lt_compat, len_pos; auto|]. apply rsum_le; auto.
Qed.
Lemma avf_nonneg {A} (f : A -> R) l : l <> [] -> (forall x, In x l -> 0 <= f x) -> 0 <= avf f l.
Proof. intros Hl H. rewrite <- (avf_const 0 l Hl). apply avf_le; auto. Qed.
Lemma average_avf l : average l = avf (fun x => x) l.
Proof. unfold average, avf. rewrite map_id. reflexivity. Qed.
Lemma central_avf k l : central k l = avf (fun x => (x - average l) ^ k) l.
Proof. unfold central. apply average_map. Qed.

Lemma average_affine a b l : l <> [] -> average (affine a b l) = a * average l + b.
Proof.
  intros H. unfold affine. rewrite average_map. rewrite avf_plus, avf_scal, avf_const by auto. rewrite <- average_avf. reflexivity.
Qed.
Lemma central_affine k a b l : l <> [] -> central k (affine a b l) = a ^ k * central k l.
Proof.
  intros H. rewrite !central_avf. rewrite average_affine by auto. rewrite <- avf_scal.
  unfold affine at 1. unfold avf. rewrite map_map, map_length. f_equal. apply rsum_map_ext. intros x _.
  rewrite <- Rpow_mult_distr. f_equal. ring.
Qed.

(** ** Moments *)
Lemma nth_power_loop_pow x k : forall r, nth_power_loop r x k = r * x ^ k.
Proof. induction k as [|k IH]; intros r; cbn [nth_power_loop pow]; [ring|]. rewrite IH. ring. Qed.
Lemma nth_power_pow N x : (0 < N)%nat -> nth_power N x = x ^ N.
Proof. intros H. unfold nth_power. rewrite nth_power_loop_pow. destruct N; [lia|]. rewrite Nat.sub_succ, Nat.sub_0_r. reflexivity. Qed.
Lemma nth_moment_ok N l : (0 < N)%nat -> l <> [] -> nth_moment N l (average l) = Ok (central N l).
Proof.
  intros HN H. unfold nth_moment. rewrite rdiv_ok by (apply len_neq0; auto).
  rewrite (accumulate_plus (fun x => nth_power N (x - average l))), Rplus_0_l. f_equal. rewrite central_avf. unfold avf. f_equal.
  apply rsum_map_ext. intros x _. apply nth_power_pow; auto.
Qed.
Lemma stat_moment_ok N l : (0 < N)%nat -> l <> [] -> stat_moment N l = Ok (central N l).
Proof. intros. unfold stat_moment. rewrite stat_mean_ok by auto. cbn [bind]. apply nth_moment_ok; auto. Qed.

Lemma central2_nonneg l : l <> [] -> 0 <= central 2 l.
Proof. intros H. rewrite central_avf. apply avf_nonneg; auto. intros x _. apply pow2_ge_0. Qed.
Lemma sum_zero_each l : (forall x, In x l -> 0 <= x) -> rsum l = 0 -> forall x, In x l -> x = 0.
Proof.
  induction l as [|y l IH]; intros H E x Hx; [destruct Hx|]. cbn [rsum] in E.
  assert (0 <= rsum l) by (apply rsum_nonneg; intros; apply H; right; auto). pose proof (H y (or_introl eq_refl)).
  destruct Hx as [<-|Hx]; [lra|]. apply IH; auto; [intros; apply H; right; auto|lra].
Qed.
Lemma average_constant l x : is_constant l -> In x l -> average l = x.
Proof.
  intros H Hx. assert (l <> []) by (intros ->; destruct Hx). rewrite average_avf. rewrite <- (avf_const x l) by auto.
  apply avf_ext. intros y Hy. apply H; auto.
Qed.
Lemma central2_zero l : l <> [] -> (central 2 l = 0 <-> is_constant l).
Proof.
  intros H. rewrite central_avf. split.
  - intros E. unfold avf in E.
    assert (E' : rsum (map (fun x => (x - average l) ^ 2) l) = 0).
    { apply (Rmult_eq_reg_r (/ INR (length l))); [|apply Rinv_neq_0_compat, len_neq0; auto]. unfold Rdiv in E. rewrite E. ring. }
    assert (Z : forall x, In x l -> x = average l).
    { intros x Hx. assert ((x - average l) ^ 2 = 0).
      { apply (sum_zero_each _ ltac:(intros y Hy; apply in_map_iff in Hy as [z [<- _]]; apply pow2_ge_0) E'). apply (in_map (fun z => (z - average l) ^ 2)). auto. }
      assert (x - average l = 0) by (apply Rsqr_0_uniq; unfold Rsqr; simpl in H0; lra). lra. }
    intros x y Hx Hy. rewrite (Z x Hx), (Z y Hy). reflexivity.
  - intros HC. rewrite <- (avf_const 0 l H). apply avf_ext. intros x Hx. rewrite (average_constant l x HC Hx). ring.
Qed.
Lemma central2_pos l : l <> [] -> ~ is_constant l -> 0 < central 2 l.
Proof.
  intros H N. pose proof (central2_nonneg l H). destruct (Rle_lt_or_eq_dec _ _ H0) as [P|E]; auto. exfalso. apply N. apply central2_zero; auto.
Qed.
Lemma central2_steiner l : l <> [] -> central 2 l = average (map (fun x => x * x) l) - average l * average l.
Proof.
  intros H. rewrite central_avf, average_map.
  rewrite (avf_ext _ (fun x => (x * x + (- (2 * average l)) * x) + average l * average l)) by (intros; ring).
  rewrite !avf_plus, avf_scal, avf_const by auto. rewrite <- average_avf. ring.
Qed.
Lemma central1_zero l : l <> [] -> avf (fun x => x - average l) l = 0.
Proof.
  intros H. rewrite (avf_ext _ (fun x => x + - average l)) by (intros; ring). rewrite avf_plus, avf_const by auto. rewrite <- average_avf. ring.
Qed.
(** Pearson's inequality between the moments. *)
Lemma pearson l : l <> [] -> central 2 l * central 4 l >= central 3 l * central 3 l + central 2 l * central 2 l * central 2 l.
Proof.
  intros H. destruct (Rle_lt_or_eq_dec _ _ (central2_nonneg l H)) as [P|Z].
  - set (m2 := central 2 l) in *. set (m3 := central 3 l). set (m4 := central 4 l).
    assert (Q : 0 <= avf (fun x => ((x - average l) ^ 2 - m2 - (m3 / m2) * (x - average l)) ^ 2) l) by (apply avf_nonneg; auto; intros; apply pow2_ge_0).
    rewrite (avf_ext _ (fun x => (((x - average l) ^ 4 + (- 2 * (m3 / m2)) * (x - average l) ^ 3)
       + (((m3 / m2) * (m3 / m2) - 2 * m2) * (x - average l) ^ 2 + (2 * m2 * (m3 / m2)) * (x - average l))) + m2 * m2)) in Q by (intros; ring).
    rewrite !avf_plus, !avf_scal, avf_const, central1_zero in Q by auto.
    rewrite <- !central_avf in Q. fold m2 m3 m4 in Q.
    assert (E : m2 * (m4 + - 2 * (m3 / m2) * m3 + (((m3 / m2) * (m3 / m2) - 2 * m2) * m2 + 2 * m2 * (m3 / m2) * 0) + m2 * m2) = m2 * m4 - m3 * m3 - m2 * m2 * m2) by (field; lra).
    assert (0 <= m2 * m4 - m3 * m3 - m2 * m2 * m2); [|lra]. rewrite <- E. apply Rmult_le_pos; lra.
  - assert (HC : is_constant l) by (apply central2_zero; auto). rewrite <- Z.
    assert (E3 : central 3 l = 0).
    { rewrite central_avf, <- (avf_const 0 l H). apply avf_ext. intros x Hx. rewrite (average_constant l x HC Hx). ring. }
    rewrite E3. lra.
Qed.

Lemma skewness_ok l : l <> [] -> ~ is_constant l -> stat_skewness l = Ok (central 3 l / (central 2 l * sqrt (central 2 l))).
Proof.
  intros H N. pose proof (central2_pos l H N). unfold stat_skewness. rewrite stat_mean_ok by auto. cbn [bind].
  rewrite !nth_moment_ok by (auto; lia). cbn [bind]. rewrite rsqrt_ok by lra. cbn [bind].
  pose proof (sqrt_lt_R0 _ H0). apply rdiv_ok. nra.
Qed.
Lemma kurtosis_ok l : l <> [] -> ~ is_constant l -> stat_kurtosis l = Ok (central 4 l / (central 2 l * central 2 l)).
Proof.
  intros H N. pose proof (central2_pos l H N). unfold stat_kurtosis. rewrite stat_mean_ok by auto. cbn [bind].
  rewrite !nth_moment_ok by (auto; lia). cbn [bind]. apply rdiv_ok. nra.
Qed.
Lemma constant_affine a b l : a <> 0 -> (is_constant (affine a b l) <-> is_constant l).
Proof.
  intros H. unfold is_constant, affine. split; intros HC x y Hx Hy.
  - assert (a * x + b = a * y + b) by (apply HC; apply (in_map (fun x => a * x + b)); auto). apply (Rmult_eq_reg_l a); lra.
  - apply in_map_iff in Hx as [u [<- Hu]]. apply in_map_iff in Hy as [v [<- Hv]]. rewrite (HC u v); auto.
Qed.

(** ** Geometric and harmonic means *)
Lemma accM_plus (f : R -> res R) (g : R -> R) l : (forall x, In x l -> f x = Ok (g x)) ->
  forall a, accumulateM (fun prev x => bind (f x) (fun y => Ok (prev + y))) a l = Ok (a + rsum (map g l)).
Proof.
  induction l as [|x l IH]; intros H a; cbn [accumulateM map rsum]; [f_equal; ring|].
  rewrite H by (left; auto). cbn [bind]. rewrite IH by (intros; apply H; right; auto). f_equal. ring.
Qed.
Lemma geometric_ok l : l <> [] -> all_positive l -> stat_geometric_mean l = Ok (exp (avf ln l)).
Proof.
  intros H P. unfold stat_geometric_mean. rewrite (accM_plus rlog ln) by (intros x Hx; apply rlog_ok; auto). cbn [bind].
  rewrite rdiv_ok by (apply len_neq0; auto). cbn [bind]. rewrite Rplus_0_l. reflexivity.
Qed.
Lemma inv_sum_pos l : l <> [] -> all_positive l -> 0 < rsum (map Rinv l).
Proof.
  intros H P. destruct l as [|x l]; [contradiction|]. cbn [map rsum].
  assert (0 < / x) by (apply Rinv_0_lt_compat; apply P; left; auto).
  assert (0 <= rsum (map Rinv l)); [|lra]. apply rsum_nonneg. intros y Hy. apply in_map_iff in Hy as [z [<- Hz]].
  left. apply Rinv_0_lt_compat, P. right; auto.
Qed.
Lemma harmonic_ok l : l <> [] -> all_positive l -> stat_harmonic_mean l = Ok (/ avf Rinv l).
Proof.
  intros H P. pose proof (inv_sum_pos l H P). pose proof (len_pos l H). unfold stat_harmonic_mean.
  rewrite (accM_plus (rdiv 1) Rinv).
  2:{ intros x Hx. pose proof (P x Hx). rewrite rdiv_ok by lra. f_equal. unfold Rdiv. ring. }
  cbn [bind]. rewrite Rplus_0_l, rdiv_ok by lra. unfold avf. f_equal. field. lra.
Qed.
Lemma ln_le_sub1 x : 0 < x -> ln x <= x - 1.
Proof.
  intros H. destruct (Rlt_le_dec (x - 1) (ln x)) as [C|C]; auto. exfalso.
  apply exp_increasing in C. rewrite exp_ln in C by auto.
  destruct (Req_dec (x - 1) 0) as [E|E].
  - rewrite E, exp_0 in C. lra.
  - pose proof (exp_ineq1 (x - 1) E). lra.
Qed.
Lemma average_pos l : l <> [] -> all_positive l -> 0 < average l.
Proof.
  intros H P. unfold average. apply Rdiv_lt_0_compat; [|apply len_pos; auto].
  destruct l as [|x l]; [contradiction|]. cbn [rsum]. pose proof (P x (or_introl eq_refl)).
  assert (0 <= rsum l); [|lra]. apply rsum_nonneg. intros y Hy. left. apply P. right; auto.
Qed.
Lemma am_gm l : l <> [] -> all_positive l -> exp (avf ln l) <= average l.
Proof.
  intros H P. pose proof (average_pos l H P) as HA. rewrite <- (exp_ln (average l)) by auto.
  assert (avf ln l <= ln (average l)); [|destruct H0 as [H0|H0]; [left; apply exp_increasing; auto|right; rewrite H0; auto]].
  assert (Q : avf (fun x => ln x) l <= avf (fun x => (/ average l * x + (ln (average l) - 1))) l).
  { apply avf_le; auto. intros x Hx. pose proof (P x Hx). pose proof (ln_le_sub1 (x / average l) ltac:(apply Rdiv_lt_0_compat; auto)).
    unfold Rdiv in H1. rewrite ln_mult, ln_Rinv in H1 by (auto; apply Rinv_0_lt_compat; auto). rewrite (Rmult_comm x) in H1. lra. }
  rewrite avf_plus, avf_scal, avf_const in Q by auto. rewrite <- average_avf, Rinv_l in Q by lra.
  change (avf (fun x => ln x) l) with (avf ln l) in Q. lra.
Qed.
Lemma hm_gm l : l <> [] -> all_positive l -> / avf Rinv l <= exp (avf ln l).
Proof.
  intros H P. pose proof (inv_sum_pos l H P). pose proof (len_pos l H).
  assert (HX : map Rinv l <> []) by (destruct l; [contradiction|discriminate]).
  assert (P1 : all_positive (map Rinv l)) by (intros y Hy; apply in_map_iff in Hy as [z [<- Hz]]; apply Rinv_0_lt_compat, P; auto).
  pose proof (am_gm (map Rinv l) HX P1) as G. rewrite average_map in G.
  assert (E : avf ln (map Rinv l) = - avf ln l).
  { unfold avf. rewrite map_map, map_length. rewrite (rsum_map_ext _ (fun x => -1 * ln x)); [rewrite rsum_map_scal; unfold Rdiv; ring|].
    intros x Hx. rewrite ln_Rinv by auto. ring. }
  rewrite E, exp_Ropp in G. apply Rinv_le_contravar in G; [|apply Rinv_0_lt_compat, exp_pos]. rewrite Rinv_inv in G. exact G.
Qed.
Lemma hm_min l m : l <> [] -> all_positive l -> is_min l m -> m <= / avf Rinv l.
Proof.
  intros H P [M1 M2]. pose proof (P m M1). assert (avf Rinv l <= / m).
  { rewrite <- (avf_const (/ m) l H). apply avf_le; auto. intros x Hx. apply Rinv_le_contravar; auto. }
  pose proof (inv_sum_pos l H P). pose proof (len_pos l H). assert (0 < avf Rinv l) by (unfold avf; apply Rdiv_lt_0_compat; auto).
  apply Rinv_le_contravar in H1; auto. rewrite Rinv_inv in H1. exact H1.
Qed.
Lemma geometric_prod l : l <> [] -> all_positive l -> exp (avf ln l) ^ length l = rprodl l.
Proof.
  intros H P. pose proof (len_neq0 l H).
  assert (E : forall l', all_positive l' -> exp (rsum (map ln l')) = rprodl l').
  { induction l' as [|x l' IH]; intros P'; cbn [map rsum rprodl]; [apply exp_0|]. rewrite exp_plus, exp_ln by (apply P'; left; auto). rewrite IH; auto. intros y Hy. apply P'. right; auto. }
  rewrite <- E by auto. rewrite <- (Rpower_pow (length l)) by apply exp_pos. unfold Rpower. rewrite ln_exp. f_equal. unfold avf. field. auto.
Qed.
