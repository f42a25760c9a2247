(** C139: the centroid and the harmonic mean in floating point. *)
From Coq Require Import ZArith Reals List Bool Lia Lra Psatz.
From Flocq Require Import Core BinarySingleNaN Relative.
From Verif Require Import Base FloatModel FloatSpec FloatProofs FloatProps FloatOrderProps FloatEnergyProps FloatClockProps FloatNumModel FloatFeatModel FloatFeatProps.
Import ListNotations.
Local Open Scope R_scope.

(** Exact sums of [i * x_i] and of [1 / x_i]. *)
Definition weighted {prec emax} (l : list (binary_float prec emax)) : R :=
  fold_right Rplus 0 (map (fun i => INR i * B2R (nth i l (B754_zero false))) (seq 0 (length l))).
Definition reciprocals {prec emax} (l : list (binary_float prec emax)) : R := fold_right Rplus 0 (map (fun x => / B2R x) l).

Section Format.
Context (prec emax : Z) {Hprec : Prec_gt_0 prec} {Hmax : Prec_lt_emax prec emax}.
Notation fl := (binary_float prec emax).
Notation rnd := (round radix2 (FLT_exp (3 - emax - prec) prec) ZnearestE).
Notation fmt := (generic_format radix2 (FLT_exp (3 - emax - prec) prec)).
Notation val := (@B2R prec emax).
Notation u := (roundoff prec).
Notation eta := (smallest prec emax).
Notation zero := (fzero prec emax).
Notation ofz := (of_Z prec emax).
Notation add := (fadd prec emax).
Notation mul := (fmul prec emax).
Notation div := (fdiv prec emax).

Lemma u_le : 0 < u <= / 2.
Proof.
  split; [apply (roundoff_pos prec)|]. unfold roundoff. apply Rinv_le_contravar; [lra|]. apply IZR_le. apply (small_pow prec).
Qed.
Lemma within x y : 0 <= y -> Rabs (x - y) <= u * Rabs y -> (1 - u) * y <= x <= (1 + u) * y.
Proof. intros Y E. rewrite (Rabs_pos_eq y) in E by exact Y. apply Rabs_le_inv in E. lra. Qed.
(** Sums of nonnegative numbers. *)
Lemma nonneg_total (l : list fl) : (forall x, In x l -> 0 <= val x) -> 0 <= total l.
Proof. induction l as [|x l IH]; intros P; cbn; [lra|]. pose proof (P x (or_introl eq_refl)). unfold total in IH. specialize (IH ltac:(intros; apply P; right; auto)). lra. Qed.
Lemma nonneg_sum l : (forall x, In x l -> 0 <= val x) -> finite (f_sum prec emax l) ->
  (1 - u) ^ length l * total l <= val (f_sum prec emax l) <= (1 + u) ^ length l * total l.
Proof.
  pose proof u_le as U. induction l as [|x l IH] using rev_ind; intros P F; [cbn; lra|].
  assert (P1 : forall y, In y l -> 0 <= val y) by (intros; apply P; apply in_or_app; auto). assert (P2 : 0 <= val x) by (apply P; apply in_or_app; right; left; reflexivity).
  rewrite sum_snoc in *. destruct (add_fin prec emax _ _ F) as [F1 [_ V]]. specialize (IH P1 F1). pose proof (nonneg_total l P1) as T.
  set (s := val (f_sum prec emax l)) in *. assert (S0 : 0 <= s) by (eapply Rle_trans; [|apply IH]; apply Rmult_le_pos; [apply pow_le; lra|exact T]).
  destruct (within (rnd (s + val x)) (s + val x)) as [W1 W2]; [lra|rewrite (roundoff_u prec); apply (add_err prec emax); apply (fmt_val prec emax)|].
  rewrite V, total_app, app_length. cbn [length]. rewrite Nat.add_1_r. cbn [pow].
  assert (A1 : (1 - u) ^ length l <= 1). { apply Rle_trans with (1 ^ length l); [apply pow_incr; lra|rewrite pow1; lra]. }
  assert (A2 : 1 <= (1 + u) ^ length l) by apply (pow_ge_1 prec). assert (A3 : 0 <= (1 - u) ^ length l) by (apply pow_le; lra).
  split.
  - eapply Rle_trans; [|exact W1]. rewrite Rmult_assoc. apply Rmult_le_compat_l; [lra|]. rewrite Rmult_plus_distr_l. nra.
  - eapply Rle_trans; [exact W2|]. rewrite Rmult_assoc. apply Rmult_le_compat_l; [lra|]. rewrite Rmult_plus_distr_l. nra.
Qed.

(** ** Centroid *)
Fixpoint terms (l : list fl) (i : fl) : list fl := match l with [] => [] | x :: t => mul i x :: terms t (add i (ofz 1)) end.
Fixpoint moment (k : nat) (l : list fl) : R := match l with [] => 0 | x :: t => INR k * val x + moment (S k) t end.
Lemma moment_weighted (l : list fl) : moment 0 l = weighted l.
Proof.
  unfold weighted. assert (G : forall t pre, l = pre ++ t -> moment (length pre) t = fold_right Rplus 0 (map (fun i => INR i * B2R (nth i l (B754_zero false))) (seq (length pre) (length t)))).
  { induction t as [|x t IH]; intros pre E; [reflexivity|]. cbn [moment length seq map fold_right]. f_equal.
    - rewrite E, app_nth2, Nat.sub_diag by lia. reflexivity.
    - specialize (IH (pre ++ [x])). rewrite app_length, Nat.add_1_r in IH. apply IH. rewrite <- app_assoc. exact E. }
  exact (G l [] eq_refl).
Qed.
Lemma cen_loop_terms l : forall i w s, fcen_loop prec emax l i w s = (fold_left add (terms l i) w, fold_left add l s).
Proof. induction l as [|x l IH]; intros i w s; [reflexivity|]. cbn [fcen_loop terms fold_left]. apply IH. Qed.
(** An integer times a number has a relative rounding error: it is a multiple of the smallest number. *)
Lemma rnd_multiple k x : fmt x -> Rabs (rnd (INR k * x) - INR k * x) <= u * Rabs (INR k * x).
Proof.
  intros Fx. apply FLT_format_generic in Fx; [|exact Hprec]. destruct Fx as [[m e] E _ He]. cbn [Fexp] in He.
  assert (Q : INR k * x = F2R (Float radix2 (Z.of_nat k * (m * radix2 ^ (e - (3 - emax - prec)))) (3 - emax - prec))).
  { rewrite E, INR_IZR_INZ. rewrite (F2R_change_exp radix2 (3 - emax - prec) m e He). unfold F2R. cbn [Fnum Fexp]. rewrite !mult_IZR. ring. }
  rewrite Q, (roundoff_u prec). eapply Rle_trans; [apply (relative_error_N_FLT_F2R_emin radix2 (3 - emax - prec) prec Hprec (fun z => negb (Z.even z)))|]. rewrite u_half. lra.
Qed.
Lemma terms_ok l : forall i k, finite i -> val i = INR k -> (Z.of_nat k + Z.of_nat (length l) <= 2 ^ prec + 1)%Z -> (forall x, In x l -> 0 <= val x) -> all_finite (terms l i) ->
  length (terms l i) = length l /\ (forall t, In t (terms l i) -> 0 <= val t) /\ (1 - u) * moment k l <= total (terms l i) <= (1 + u) * moment k l.
Proof.
  induction l as [|x l IH]; intros i k F V B P A; [split; [reflexivity|split; [intros ? []|cbn; lra]]|]. cbn [terms length] in *. inversion A as [|? ? Ft At]; subst.
  destruct (mul_fin prec emax _ _ Ft) as [_ [Fx Vt]]. rewrite V in Vt. pose proof (P x (or_introl eq_refl)) as Px. pose proof (pos_INR k) as Pk.
  assert (Pt : 0 <= INR k * val x) by (apply Rmult_le_pos; auto).
  destruct (within (rnd (INR k * val x)) (INR k * val x) Pt (rnd_multiple k (val x) (fmt_val prec emax x))) as [W1 W2].
  assert (T : length (terms l (add i (ofz 1))) = length l /\ (forall t, In t (terms l (add i (ofz 1))) -> 0 <= val t) /\ (1 - u) * moment (S k) l <= total (terms l (add i (ofz 1))) <= (1 + u) * moment (S k) l).
  { destruct l as [|y l]; [split; [reflexivity|split; [intros ? []|cbn; lra]]|]. cbn [length] in B.
    destruct (of_Z_exact prec emax 1) as [F1 V1]; [pose proof (small_pow prec); cbn; lia|].
    assert (E : val i + val (ofz 1) = IZR (Z.of_nat (S k))) by (rewrite V, V1, INR_IZR_INZ, <- plus_IZR; f_equal; lia).
    assert (Rk : rnd (val i + val (ofz 1)) = IZR (Z.of_nat (S k))) by (rewrite E; apply (rnd_id prec emax); apply (fmt_small prec emax); lia).
    destruct (add_cases prec emax i (ofz 1) F F1) as [[_ [V2 F2]]|[O _]].
    - apply IH; auto; [rewrite V2, Rk, <- INR_IZR_INZ; reflexivity|cbn [length]; lia|intros; apply P; right; auto].
    - exfalso. rewrite Rk, Rabs_pos_eq in O by (apply IZR_le; lia). apply Rle_not_lt in O. apply O. apply Rle_lt_trans with (bpow radix2 prec); [|apply bpow_lt; exact Hmax].
      pose proof Hprec as P0. unfold Prec_gt_0 in P0. rewrite <- IZR_Zpower by lia. apply IZR_le. change (radix2 ^ prec)%Z with (2 ^ prec)%Z. lia. }
  destruct T as [T1 [T2 T3]]. split; [rewrite T1; reflexivity|]. split.
  - intros t [<-|I]; [rewrite Vt; apply (rnd_pos prec emax); exact Pt|apply T2; exact I].
  - unfold total in *. cbn [map fold_right moment]. rewrite Vt. lra.
Qed.
Lemma moment_pos l k : (forall x : fl, In x l -> 0 <= val x) -> 0 <= moment k l.
Proof. revert k. induction l as [|x l IH]; intros k P; cbn [moment]; [lra|]. pose proof (P x (or_introl eq_refl)). specialize (IH (S k) ltac:(intros; apply P; right; auto)). pose proof (pos_INR k). nra. Qed.
Lemma quotient_bounds w s W S n : 0 <= W -> 0 < S -> (1 - u) ^ n * W <= w <= (1 + u) ^ n * W -> (1 - u) ^ n * S <= s <= (1 + u) ^ n * S ->
  0 < s /\ 0 <= w / s /\ W / S * (1 - u) ^ n / (1 + u) ^ n <= w / s <= W / S * (1 + u) ^ n / (1 - u) ^ n.
Proof.
  intros HW HS Hw Hs. pose proof u_le as U. assert (A : 0 < (1 - u) ^ n) by (apply pow_lt; lra). assert (B : 0 < (1 + u) ^ n) by (apply pow_lt; lra).
  set (a := (1 - u) ^ n) in *. set (b := (1 + u) ^ n) in *. assert (P1 : 0 < a * S) by (apply Rmult_lt_0_compat; auto). assert (P2 : 0 < b * S) by (apply Rmult_lt_0_compat; auto).
  assert (P3 : 0 <= a * W) by (apply Rmult_le_pos; lra). assert (Ps : 0 < s) by lra. split; [exact Ps|]. split; [apply Rmult_le_pos; [lra|left; apply Rinv_0_lt_compat; exact Ps]|]. split.
  - replace (W / S * a / b) with ((a * W) * / (b * S)) by (field; lra). unfold Rdiv. apply Rmult_le_compat; [exact P3|left; apply Rinv_0_lt_compat; exact P2|lra|apply Rinv_le_contravar; lra].
  - replace (W / S * b / a) with ((b * W) * / (a * S)) by (field; lra). unfold Rdiv. apply Rmult_le_compat; [lra|left; apply Rinv_0_lt_compat; exact Ps|lra|apply Rinv_le_contravar; lra].
Qed.
Lemma pow_weaken l : 0 <= l -> forall n, (1 - u) ^ S n * l <= (1 - u) ^ n * l /\ (1 + u) ^ n * l <= (1 + u) ^ S n * l.
Proof.
  intros L n. pose proof u_le as U. assert (A : 0 < (1 - u) ^ n) by (apply pow_lt; lra). assert (B : 0 < (1 + u) ^ n) by (apply pow_lt; lra). cbn [pow].
  assert (0 <= (1 - u) ^ n * l) by (apply Rmult_le_pos; lra). assert (0 <= (1 + u) ^ n * l) by (apply Rmult_le_pos; lra). split; nra.
Qed.
Lemma rounded_quotient q lo hi : 0 <= q -> lo <= q <= hi -> (1 - u) * lo - eta / 2 <= rnd q <= (1 + u) * hi + eta / 2.
Proof.
  intros Q B. pose proof (rnd_err prec emax q) as E. rewrite <- (roundoff_u prec), <- (smallest_tiny prec emax) in E. rewrite (Rabs_pos_eq q) in E by exact Q. apply Rabs_le_inv in E. pose proof u_le as U.
  assert ((1 - u) * lo <= (1 - u) * q) by (apply Rmult_le_compat_l; lra). assert ((1 + u) * q <= (1 + u) * hi) by (apply Rmult_le_compat_l; lra). lra.
Qed.
(** The centroid of samples from zero up: the exact value up to a relative error of about (2n + 3) u. *)
Theorem C139_centroid l : (Z.of_nat (length l) <= 2 ^ prec)%Z -> all_finite l -> (forall x, In x l -> 0 <= val x) -> 0 < total l ->
  (1 + u) ^ length l * total l < IZR (2 ^ emax) -> finite (f_centroid prec emax l) ->
  let c := weighted l / total l in let n := S (length l) in
  0 <= val (f_centroid prec emax l) /\
  (1 - u) * (c * (1 - u) ^ n / (1 + u) ^ n) - eta / 2 <= val (f_centroid prec emax l) <= (1 + u) * (c * (1 + u) ^ n / (1 - u) ^ n) + eta / 2.
Proof.
  intros L A P T O F c n. assert (AT : abs_total l = total l).
  { clear -P. induction l as [|x l IH]; [reflexivity|]. unfold abs_total, total in *. cbn [map fold_right]. rewrite IH by (intros; apply P; right; auto). rewrite Rabs_pos_eq by (apply P; left; reflexivity). reflexivity. }
  assert (Fs : finite (f_sum prec emax l)) by (apply C115_sum_finite; [exact A|rewrite AT; exact O]).
  pose proof (nonneg_sum l P Fs) as Bs. unfold f_centroid in *. rewrite cen_loop_terms in *. cbn [fst snd] in *.
  change (fold_left add l zero) with (f_sum prec emax l) in *. change (fold_left add (terms l zero) zero) with (f_sum prec emax (terms l zero)) in *.
  set (s := f_sum prec emax l) in *. set (w := f_sum prec emax (terms l zero)) in *. pose proof u_le as U.
  assert (A0 : 0 < (1 - u) ^ length l) by (apply pow_lt; lra). assert (Ps : 0 < val s) by (eapply Rlt_le_trans; [|apply Bs]; apply Rmult_lt_0_compat; auto).
  assert (Fw : finite w).
  { assert (E : exists b m e H, s = B754_finite b m e H) by (apply (val_nonzero prec emax s); split; [exact Fs|lra]). destruct E as [b [m [e [H E]]]]. rewrite E in F.
    unfold finite. destruct w as [?|?| |]; try reflexivity; discriminate F. }
  assert (At : all_finite (terms l zero)) by (apply (C115_sum_error prec emax); exact Fw).
  destruct (terms_ok l zero 0 eq_refl eq_refl ltac:(lia) P At) as [Lt [Pt Bt]]. pose proof (nonneg_sum (terms l zero) Pt Fw) as Bw. fold w in Bw. rewrite Lt in Bw. rewrite moment_weighted in Bt.
  assert (Wp : 0 <= weighted l) by (rewrite <- moment_weighted; apply moment_pos; exact P).
  assert (Bw' : (1 - u) ^ n * weighted l <= val w <= (1 + u) ^ n * weighted l).
  { unfold n. cbn [pow]. assert (B0 : 0 < (1 + u) ^ length l) by (apply pow_lt; lra). split.
    - eapply Rle_trans; [|apply Bw]. rewrite (Rmult_comm (1 - u)), Rmult_assoc. apply Rmult_le_compat_l; lra.
    - eapply Rle_trans; [apply Bw|]. rewrite (Rmult_comm (1 + u)), Rmult_assoc. apply Rmult_le_compat_l; lra. }
  assert (Bs' : (1 - u) ^ n * total l <= val s <= (1 + u) ^ n * total l) by (destruct (pow_weaken (total l) ltac:(lra) (length l)); unfold n; lra).
  destruct (quotient_bounds (val w) (val s) _ _ n Wp T Bw' Bs') as [_ [Q1 Q2]]. fold c in Q2.
  destruct (div_cases prec emax w s Fw ltac:(lra)) as [[_ [V _]]|[_ E]]; [|exfalso; rewrite E in F; discriminate F]. rewrite V. split; [apply (rnd_pos prec emax); exact Q1|].
  apply rounded_quotient; auto.
Qed.

(** ** Harmonic mean *)
Lemma inv_ok x : finite x -> bpow radix2 (2 - emax) <= val x <= bpow radix2 (emax - 2) ->
  finite (f_inv prec emax x) /\ (1 - u) * / val x <= val (f_inv prec emax x) <= (1 + u) * / val x.
Proof.
  intros F B. pose proof (bpow_gt_0 radix2 (2 - emax)) as B0. pose proof Hprec as P0. pose proof Hmax as M0. unfold Prec_gt_0 in P0. unfold Prec_lt_emax in M0.
  destruct (of_Z_exact prec emax 1) as [F1 V1]; [pose proof (small_pow prec); cbn; lia|].
  assert (I : bpow radix2 (2 - emax) <= / val x <= bpow radix2 (emax - 2)).
  { split; [replace (2 - emax)%Z with (- (emax - 2))%Z by lia|replace (emax - 2)%Z with (- (2 - emax))%Z by lia]; rewrite bpow_opp; apply Rinv_le_contravar; lra. }
  assert (E : Rabs (rnd (/ val x) - / val x) <= u * Rabs (/ val x)).
  { rewrite (roundoff_u prec), <- (u_half prec). apply relative_error_N_FLT; [exact Hprec|]. rewrite Rabs_pos_eq by lra. replace (3 - emax - prec + prec - 1)%Z with (2 - emax)%Z by lia. apply I. }
  assert (I0 : 0 <= / val x) by lra. destruct (within _ _ I0 E) as [W1 W2].
  unfold f_inv. destruct (div_cases prec emax (ofz 1) x F1 ltac:(lra)) as [[_ [V [Fd _]]]|[O _]]; rewrite V1 in *; unfold Rdiv in *; rewrite Rmult_1_l in *.
  - split; [exact Fd|]. rewrite V. auto.
  - exfalso. assert (R0 : 0 <= rnd (/ val x)) by (apply (rnd_pos prec emax); lra). rewrite Rabs_pos_eq in O by exact R0.
    assert (R1 : rnd (/ val x) <= bpow radix2 (emax - 2)) by (rewrite <- (rnd_id prec emax (bpow radix2 (emax - 2))) by (apply (fmt_bpow prec emax); lia); apply (rnd_le prec emax); apply I).
    assert (bpow radix2 (emax - 2) < bpow radix2 emax) by (apply bpow_lt; lia). lra.
Qed.
(** Of samples whose reciprocals neither overflow nor underflow, with a finite sum. *)
Theorem C139_harmonic_mean l : l <> [] -> (Z.of_nat (length l) <= 2 ^ prec)%Z -> all_finite l -> (forall x, In x l -> bpow radix2 (2 - emax) <= val x <= bpow radix2 (emax - 2)) ->
  (1 + u) ^ S (length l) * reciprocals l < IZR (2 ^ emax) -> finite (f_harmonic_mean prec emax l) ->
  let h := INR (length l) / reciprocals l in let n := S (length l) in
  0 <= val (f_harmonic_mean prec emax l) /\
  (1 - u) * (h * (1 - u) ^ n / (1 + u) ^ n) - eta / 2 <= val (f_harmonic_mean prec emax l) <= (1 + u) * (h * (1 + u) ^ n / (1 - u) ^ n) + eta / 2.
Proof.
  intros N L A B O F h n. pose proof u_le as U. pose proof (bpow_gt_0 radix2 (2 - emax)) as B0.
  assert (Acc : fold_left (fun prev current => add prev (f_inv prec emax current)) l zero = f_sum prec emax (map (f_inv prec emax) l)).
  { unfold f_sum. generalize zero. clear. induction l as [|x l IH]; intros a; cbn [map fold_left]; auto. }
  unfold f_harmonic_mean in *. rewrite Acc in *. clear Acc. set (ts := map (f_inv prec emax) l) in *.
  assert (G : all_finite ts /\ (forall t, In t ts -> 0 <= val t) /\ abs_total ts = total ts /\ (1 - u) * reciprocals l <= total ts <= (1 + u) * reciprocals l /\ 0 <= reciprocals l).
  { unfold ts. clear -A B U B0. induction A as [|x l Fx A IH]; [split; [constructor|split; [intros ? []|split; [reflexivity|unfold reciprocals, total; cbn; lra]]]|].
    destruct IH as [I1 [I2 [I3 [I4 I5]]]]; [intros; apply B; right; auto|]. pose proof (B x (or_introl eq_refl)) as Bx. destruct (inv_ok x Fx Bx) as [Fi Vi].
    assert (Ix : 0 < / val x) by (apply Rinv_0_lt_compat; lra). assert (Pi : 0 <= val (f_inv prec emax x)) by (eapply Rle_trans; [|apply Vi]; apply Rmult_le_pos; lra).
    split; [constructor; auto|]. split; [intros t [<-|I]; auto|]. unfold abs_total, total, reciprocals in *. cbn [map fold_right]. split; [rewrite I3, Rabs_pos_eq by exact Pi; reflexivity|]. lra. }
  destruct G as [G1 [G2 [G3 [G4 G5]]]].
  assert (Rp : 0 < reciprocals l).
  { destruct l as [|x l]; [congruence|]. unfold reciprocals. cbn [map fold_right]. pose proof (B x (or_introl eq_refl)). assert (0 < / val x) by (apply Rinv_0_lt_compat; lra).
    assert (0 <= fold_right Rplus 0 (map (fun x0 : fl => / val x0) l)); [|lra]. clear -B B0. assert (B' : forall x, In x l -> bpow radix2 (2 - emax) <= val x) by (intros; apply B; right; auto). clear B.
    induction l as [|y l IH]; cbn; [lra|]. pose proof (B' y (or_introl eq_refl)). assert (0 < / val y) by (apply Rinv_0_lt_compat; lra). specialize (IH ltac:(intros; apply B'; right; auto)). lra. }
  assert (Lt : length ts = length l) by apply map_length. assert (P0 : 0 < (1 + u) ^ length l) by (apply pow_lt; lra). assert (P1 : 0 < (1 - u) ^ length l) by (apply pow_lt; lra).
  assert (Fs : finite (f_sum prec emax ts)).
  { apply C115_sum_finite; [exact G1|]. rewrite G3, Lt. eapply Rle_lt_trans; [|exact O]. cbn [pow]. rewrite (Rmult_comm (1 + u)), Rmult_assoc. apply Rmult_le_compat_l; lra. }
  pose proof (nonneg_sum ts G2 Fs) as Bs. rewrite Lt in Bs. set (s := f_sum prec emax ts) in *.
  assert (Bs' : (1 - u) ^ n * reciprocals l <= val s <= (1 + u) ^ n * reciprocals l).
  { unfold n. cbn [pow]. split.
    - eapply Rle_trans; [|apply Bs]. rewrite (Rmult_comm (1 - u)), Rmult_assoc. apply Rmult_le_compat_l; lra.
    - eapply Rle_trans; [apply Bs|]. rewrite (Rmult_comm (1 + u)), Rmult_assoc. apply Rmult_le_compat_l; lra. }
  destruct (of_nat_exact prec emax (length l) L) as [Fn Vn]. pose proof (pos_INR (length l)) as Pn.
  assert (Bn : (1 - u) ^ n * INR (length l) <= INR (length l) <= (1 + u) ^ n * INR (length l)).
  { assert ((1 - u) ^ n <= 1) by (apply Rle_trans with (1 ^ n); [apply pow_incr; lra|rewrite pow1; lra]). assert (1 <= (1 + u) ^ n) by apply (pow_ge_1 prec). nra. }
  destruct (quotient_bounds _ _ _ _ n Pn Rp Bn Bs') as [Ps [Q1 Q2]]. fold h in Q2.
  destruct (div_cases prec emax (of_nat prec emax (length l)) s Fn ltac:(lra)) as [[_ [V _]]|[_ E]]; [|exfalso; rewrite E in F; discriminate F]. rewrite V, Vn.
  split; [apply (rnd_pos prec emax); exact Q1|]. apply rounded_quotient; auto.
Qed.
End Format.

(** The centroid can lie beyond the last position, and the harmonic mean of one number is not that
    number, may be above it or be zero. *)
Theorem C139_centroid_range_refuted :
  ~ (forall l : list double, l <> [] -> all_finite l -> (forall x, In x l -> le (dbl 0) x) -> le (f_centroid 53 1024 l) (dbl (Z.of_nat (length l) - 1))).
Proof.
  intros H. specialize (H [dbl 0; dbl 0; dbl 0; ratio 1 5] ltac:(discriminate) ltac:(repeat constructor)). assert (K : forall x, In x [dbl 0; dbl 0; dbl 0; ratio 1 5] -> le (dbl 0) x).
  { intros x [<-|[<-|[<-|[<-|[]]]]]; vm_compute; reflexivity. } specialize (H K). vm_compute in H. discriminate H.
Qed.
Theorem C139_harmonic_bound_refuted : ~ (forall l : list double, l <> [] -> all_finite l -> (forall x, In x l -> lt (dbl 0) x) -> exists x, In x l /\ le (f_harmonic_mean 53 1024 l) x).
Proof.
  intros H. destruct (H [dbl 49]) as [x [[<-|[]] L]]; [discriminate|repeat constructor|intros x [<-|[]]; vm_compute; reflexivity|]. vm_compute in L. discriminate L.
Qed.
Definition faint : double := fmul 53 1024 (ratio 1 (2 ^ 600)) (ratio 1 (2 ^ 430)).
Theorem C139_harmonic_zero_refuted : ~ (forall x : double, finite x -> lt (dbl 0) x -> lt (dbl 0) (f_harmonic_mean 53 1024 [x])).
Proof. intros H. specialize (H faint ltac:(vm_compute; reflexivity) ltac:(vm_compute; reflexivity)). vm_compute in H. discriminate H. Qed.
Example C139_example : let l := [dbl 1; dbl 2] in
  l <> [] /\ (Z.of_nat (length l) <= 2 ^ 53)%Z /\ all_finite l /\ (forall x, In x l -> bpow radix2 (2 - 1024) <= B2R x <= bpow radix2 (1024 - 2)) /\ 0 < total l /\
  (1 + roundoff 53) ^ length l * total l < IZR (2 ^ 1024) /\ (1 + roundoff 53) ^ S (length l) * reciprocals l < IZR (2 ^ 1024) /\
  finite (f_centroid 53 1024 l) /\ finite (f_harmonic_mean 53 1024 l).
Proof.
  destruct (sf_val (dbl 1) 4503599627370496 (-52)) as [_ V1]; [vm_compute; reflexivity|]. destruct (sf_val (dbl 2) 4503599627370496 (-51)) as [_ V2]; [vm_compute; reflexivity|].
  assert (W1 : B2R (dbl 1) = 1) by (rewrite V1; cbn; lra). assert (W2 : B2R (dbl 2) = 2) by (rewrite V2; cbn; lra). clear V1 V2.
  assert (U : 0 < roundoff 53 <= / 2) by apply (u_le 53). assert (Big : 100 < IZR (2 ^ 1024)) by (apply IZR_lt; vm_compute; reflexivity).
  assert (L1 : bpow radix2 (2 - 1024) <= 1) by (change 1 with (bpow radix2 0); apply bpow_le; lia).
  assert (L2 : 2 <= bpow radix2 (1024 - 2)) by (change 2 with (bpow radix2 1); apply bpow_le; lia).
  cbv zeta. split; [discriminate|]. split; [vm_compute; discriminate|]. split; [repeat constructor|].
  split; [intros x [<-|[<-|[]]]; rewrite ?W1, ?W2; lra|]. unfold total, reciprocals. cbn [map fold_right length]. rewrite W1, W2.
  split; [lra|]. split; [cbn [pow]; nra|]. split; [cbn [pow]; rewrite Rinv_1; assert (/ 2 < 1) by lra; nra|]. split; vm_compute; reflexivity.
Qed.
Print Assumptions C139_centroid.
Print Assumptions C139_harmonic_mean.
Print Assumptions C139_centroid_range_refuted.
Print Assumptions C139_harmonic_bound_refuted.
Print Assumptions C139_harmonic_zero_refuted.
