(** C149: mean, energy, clipping amplifier and normalisation of int samples. *)
From Coq Require Import ZArith List Bool Lia Psatz.
From Verif Require Import Base IntModel.
Import ListNotations.
Local Open Scope Z_scope.

(** Samples of magnitude at most [M]. *)
Definition within (M : Z) (l : list Z) : Prop := Forall (fun x => Z.abs x <= M) l.
Definition total (l : list Z) : Z := fold_right Z.add 0 l.
Definition size (l : list Z) : Z := Z.of_nat (length l).
(** The largest magnitude of the samples. *)
Definition peak_of (p : Z) (l : list Z) : Prop := (exists x, In x l /\ Z.abs x = p) /\ within p l.

Lemma int_op_ok z : - 2 ^ 31 <= z < 2 ^ 31 -> int_op z = Ok z.
Proof. intros H. unfold int_op. destruct (Z.leb_spec (- 2 ^ 31) z); [|lia]. destruct (Z.ltb_spec z (2 ^ 31)); [reflexivity|lia]. Qed.
Lemma int_op_ub z : ~ (- 2 ^ 31 <= z < 2 ^ 31) -> int_op z = UB.
Proof. intros H. unfold int_op. destruct (Z.leb_spec (- 2 ^ 31) z); [|reflexivity]. destruct (Z.ltb_spec z (2 ^ 31)); [lia|reflexivity]. Qed.
Lemma size_cons x l : size (x :: l) = size l + 1. Proof. unfold size. cbn [length]. lia. Qed.
Lemma size_pos l : 0 <= size l. Proof. unfold size. lia. Qed.

Lemma sum_ok M l : within M l -> forall a, Z.abs a + size l * M < 2 ^ 31 -> z_sum a l = Ok (a + total l).
Proof.
  induction 1 as [|x l Hx F IH]; intros a H; [cbn; f_equal; lia|]. rewrite size_cons in H. cbn [z_sum total fold_right]. fold (total l).
  assert (0 <= M) by lia. pose proof (size_pos l). assert (0 <= size l * M) by nia. rewrite int_op_ok by lia. cbn [bind]. rewrite IH by lia. f_equal. lia.
Qed.
Lemma total_bounds lo hi l : Forall (fun x => lo <= x <= hi) l -> size l * lo <= total l <= size l * hi.
Proof. induction 1 as [|x l Hx F IH]; [cbn; lia|]. rewrite size_cons. cbn [total fold_right]. fold (total l). nia. Qed.
Lemma quot_near s n : 0 < n -> Z.abs (n * Z.quot s n - s) < n /\ Z.abs (Z.quot s n) <= Z.abs s.
Proof.
  intros Hn. pose proof (Z.quot_rem' s n) as E. pose proof (Z.rem_bound_abs s n ltac:(lia)) as B. split; [lia|].
  rewrite <- Z.quot_abs by lia. apply Z.quot_le_upper_bound; [lia|]. assert (1 <= Z.abs n) by lia. nia.
Qed.

(** As long as the sum cannot leave the range of int, the mean is defined, is the exact mean rounded towards
    zero, and lies between any bounds of the samples. *)
Theorem C149_mean M l lo hi : l <> [] -> within M l -> 1 <= M -> size l * M < 2 ^ 31 -> Forall (fun x => lo <= x <= hi) l ->
  exists m, z_mean l = Ok m /\ Z.abs (size l * m - total l) < size l /\ (0 <= total l -> size l * m <= total l) /\
    (total l <= 0 -> total l <= size l * m) /\ lo <= m <= hi.
Proof.
  intros HN HW HM HS HB. assert (N : 0 < size l) by (destruct l; [congruence|rewrite size_cons; pose proof (size_pos l); lia]).
  assert (TB : - (size l * M) <= total l <= size l * M).
  { pose proof (total_bounds (- M) M l) as T. replace (size l * - M) with (- (size l * M)) in T by ring. apply T. eapply Forall_impl; [|exact HW]. cbn. lia. }
  destruct (quot_near (total l) (size l) N) as [Q1 Q2]. exists (Z.quot (total l) (size l)).
  split.
  { unfold z_mean. rewrite (sum_ok M) by (auto; lia). cbn [bind]. change (Z.of_nat (length l)) with (size l). rewrite int_op_ok by nia. cbn [bind].
    unfold int_div. destruct (Z.eqb_spec (size l) 0); [lia|]. rewrite Z.add_0_l. apply int_op_ok. lia. }
  split; [exact Q1|]. pose proof (total_bounds lo hi l HB) as T. pose proof (Z.quot_rem' (total l) (size l)) as E.
  assert (S1 : 0 <= total l -> 0 <= Z.rem (total l) (size l) < size l) by (intros P; apply Z.rem_bound_pos; lia).
  assert (S2 : total l <= 0 -> - size l < Z.rem (total l) (size l) <= 0) by (intros P; pose proof (Z.rem_bound_pos (- total l) (size l) ltac:(lia) N) as R0; rewrite Z.rem_opp_l in R0 by lia; lia).
  split; [intros P; specialize (S1 P); lia|]. split; [intros P; specialize (S2 P); lia|].
  destruct (Z.le_ge_cases 0 (total l)) as [P|P]; [specialize (S1 P)|specialize (S2 P)]; nia.
Qed.
(** Otherwise it may be undefined: two samples at full scale are enough. *)
Theorem C149_mean_overflow_refuted t : z_mean (2147483647 :: 2147483647 :: t) = UB.
Proof. reflexivity. Qed.

Lemma inner_ok M l : within M l -> forall a, 0 <= a -> a + size l * (M * M) < 2 ^ 31 -> z_inner a l = Ok (a + total (map (fun x => x * x) l)).
Proof.
  induction 1 as [|x l Hx F IH]; intros a Ha H; [cbn; f_equal; lia|]. rewrite size_cons in H. cbn [z_inner map total fold_right]. fold (total (map (fun x => x * x) l)).
  assert (X : 0 <= x * x <= M * M) by nia. pose proof (size_pos l). assert (0 <= size l * (M * M)) by nia.
  rewrite int_op_ok by lia. cbn [bind]. rewrite int_op_ok by lia. cbn [bind]. rewrite IH by lia. f_equal. lia.
Qed.
(** The energy is exact as long as N M^2 is in the range of int. *)
Theorem C149_energy M l : within M l -> size l * (M * M) < 2 ^ 31 -> z_energy l = Ok (total (map (fun x => x * x) l)).
Proof. intros HW HS. unfold z_energy. rewrite (inner_ok M) by (auto; lia). f_equal. Qed.
(** Three samples at the full scale of 16 bits overflow it. *)
Theorem C149_energy_overflow_refuted t : z_energy (32767 :: 32767 :: 32767 :: t) = UB.
Proof. reflexivity. Qed.

(** The clipping amplifier returns the product limited to [mn, mx] when the product is an int, and is undefined
    otherwise: clipping does not protect from overflow. *)
Theorem C149_amplifier_actual factor mn mx x : mn <= mx ->
  (- 2 ^ 31 <= factor * x < 2 ^ 31 -> exists y, z_amp_clip factor mn mx x = Ok y /\ y = Z.max mn (Z.min mx (factor * x)) /\ mn <= y <= mx) /\
  (~ (- 2 ^ 31 <= factor * x < 2 ^ 31) -> z_amp_clip factor mn mx x = UB).
Proof.
  intros H. unfold z_amp_clip. split; intros P; [rewrite int_op_ok by exact P|rewrite int_op_ub by exact P; reflexivity].
  cbn [bind]. eexists. split; [reflexivity|]. destruct (Z.ltb_spec (factor * x) mn); [lia|]. destruct (Z.ltb_spec mx (factor * x)); lia.
Qed.
(** On a range: every sample is limited, or one of the products is not an int and the call is undefined. *)
Theorem C149_amplifier_range_actual factor mn mx l : mn <= mx ->
  (Forall (fun x => - 2 ^ 31 <= factor * x < 2 ^ 31) l -> z_amplifier factor mn mx l = Ok (map (fun x => Z.max mn (Z.min mx (factor * x))) l)) /\
  (Exists (fun x => ~ (- 2 ^ 31 <= factor * x < 2 ^ 31)) l -> z_amplifier factor mn mx l = UB).
Proof.
  intros H. split.
  - induction 1 as [|x l Hx F IH]; [reflexivity|]. cbn [z_amplifier map]. destruct (C149_amplifier_actual factor mn mx x H) as [A _].
    destruct (A Hx) as [y [E [-> _]]]. rewrite E. cbn [bind]. rewrite IH. reflexivity.
  - induction 1 as [x l Hx|x l Hx IH]; cbn [z_amplifier].
    + destruct (C149_amplifier_actual factor mn mx x H) as [_ B]. rewrite (B Hx). reflexivity.
    + rewrite IH. unfold z_amp_clip, int_op. destruct (_ && _); reflexivity.
Qed.

Lemma scan_ok l : forall b, within (2 ^ 31 - 1) (b :: l) -> exists x, z_scan b l = Ok x /\ In x (b :: l) /\ Forall (fun y => Z.abs y <= Z.abs x) (b :: l).
Proof.
  induction l as [|x l IH]; intros b W.
  - exists b. split; [reflexivity|]. split; [left; reflexivity|]. constructor; [lia|constructor].
  - inversion W as [|b' l' Wb W']; subst. inversion W' as [|x' l'' Wx Wl]; subst. cbn [z_scan]. unfold int_abs.
    rewrite !int_op_ok by lia. cbn [bind]. destruct (Z.ltb_spec (Z.abs b) (Z.abs x)) as [L|L].
    + destruct (IH x W') as [z [E [I B]]]. exists z. split; [exact E|]. split; [right; exact I|]. constructor; [|exact B]. inversion B; subst. lia.
    + destruct (IH b ltac:(constructor; assumption)) as [z [E [I B]]]. exists z. split; [exact E|].
      split; [destruct I as [<-|I]; [left; reflexivity|right; right; exact I]|]. inversion B as [|? ? B1 B2]; subst. constructor; [exact B1|]. constructor; [lia|exact B2].
Qed.
Lemma maxabs_ok p l : within (2 ^ 31 - 1) l -> peak_of p l -> z_maxabs l = Ok p.
Proof.
  intros W [[x [I E]] B]. destruct l as [|b l]; [destruct I|]. destruct (scan_ok l b W) as [z [Ez [Iz Bz]]].
  unfold z_maxabs. rewrite Ez. cbn [bind]. unfold int_abs. rewrite int_op_ok.
  - f_equal. rewrite Forall_forall in Bz. specialize (Bz x I). unfold within in B. rewrite Forall_forall in B. specialize (B z Iz). cbv beta in B, Bz. lia.
  - unfold within in W. rewrite Forall_forall in W. specialize (W z Iz). cbv beta in W. lia.
Qed.
(** Normalising ints to ints keeps the signs of the peaks only: every other sample becomes 0. *)
Theorem C149_normalize_refuted p l : within (2 ^ 31 - 1) l -> peak_of p l -> 0 < p ->
  z_normalize l = Ok (map (fun x => if Z.abs x =? p then Z.sgn x else 0) l).
Proof.
  intros W P Hp. unfold z_normalize. rewrite (maxabs_ok p) by assumption. cbn [bind]. destruct P as [_ B].
  clear W. induction B as [|x l Hx B IH]; [reflexivity|]. cbn [z_quots map].
  assert (Q : int_div x p = Ok (if Z.abs x =? p then Z.sgn x else 0)).
  { unfold int_div. destruct (Z.eqb_spec p 0); [lia|]. destruct (Z.eqb_spec (Z.abs x) p) as [E|E].
    - assert (X : x = Z.sgn x * p) by (rewrite <- E; rewrite Z.mul_comm; symmetry; apply Z.abs_sgn). rewrite X at 1. rewrite Z.quot_mul by lia. apply int_op_ok. destruct (Z.sgn_spec x) as [[_ S]|[[_ S]|[_ S]]]; rewrite S; lia.
    - replace (Z.quot x p) with 0; [reflexivity|]. symmetry. apply Z.quot_small_iff; lia. }
  rewrite Q. cbn [bind]. rewrite IH. reflexivity.
Qed.
(** A silent range is divided by zero. *)
Theorem C149_normalize_silence_refuted n : z_normalize (repeat 0 (S n)) = UB.
Proof.
  unfold z_normalize. rewrite (maxabs_ok 0).
  - reflexivity.
  - apply Forall_forall. intros x H. apply repeat_spec in H. subst x. lia.
  - split; [exists 0; split; [left; reflexivity|reflexivity]|]. apply Forall_forall. intros x H. apply repeat_spec in H. subst x. lia.
Qed.

Example C149_example : within 1000 [1000; -400; 3] /\ peak_of 1000 [1000; -400; 3] /\ z_mean [1000; -400; 3] = Ok 201 /\
  z_energy [1000; -400; 3] = Ok 1160009 /\ z_amplifier 3 (-2000) 2000 [1000; -400; 3] = Ok [2000; -1200; 9] /\ z_normalize [1000; -400; 3] = Ok [1; 0; 0].
Proof.
  assert (W : within 1000 [1000; -400; 3]) by (repeat (apply Forall_cons; [lia|]); apply Forall_nil).
  split; [exact W|]. split; [split; [exists 1000; split; [left; reflexivity|reflexivity]|exact W]|]. repeat split.
Qed.
Print Assumptions C149_mean.
Print Assumptions C149_mean_overflow_refuted.
Print Assumptions C149_energy.
Print Assumptions C149_energy_overflow_refuted.
Print Assumptions C149_amplifier_actual.
Print Assumptions C149_amplifier_range_actual.
Print Assumptions C149_normalize_refuted.
Print Assumptions C149_normalize_silence_refuted.
