(** C129: the ADSR envelope in floating point. *)
From Coq Require Import ZArith Reals List Bool Lia Lra Psatz.
From Flocq Require Import Core BinarySingleNaN.
From Verif Require Import Base FloatModel FloatSpec FloatProofs FloatProps FloatOrderProps FloatEnergyProps FloatClockProps FloatEnvModel.
Import ListNotations.
Local Open Scope R_scope.

Section Format.
Context (prec emax : Z) {Hprec : Prec_gt_0 prec} {Hmax : Prec_lt_emax prec emax}.
Notation fl := (binary_float prec emax).
Notation rnd := (round radix2 (FLT_exp (3 - emax - prec) prec) ZnearestE).
Notation fmt := (generic_format radix2 (FLT_exp (3 - emax - prec) prec)).
Notation val := (@B2R prec emax).
Notation lev := (level prec emax).
Notation u := (roundoff prec).
Notation zero := (fzero prec emax).
Notation run := (env_history prec emax).

(** The arguments the setters accept, with levels between silence and full scale. *)
Definition unit_level (x : fl) : Prop := finite x /\ 0 <= val x <= 1.
Definition allowed (o : env_op prec emax) : Prop :=
  match o with
  | KeyOn _ _ | KeyOff _ _ => True
  | SetAttackTarget _ _ x | SetSustain _ _ x | SetTarget _ _ x => unit_level x
  | SetAttackRate _ _ x | SetDecayRate _ _ x | SetReleaseRate _ _ x => le zero x
  | SetReleaseTime _ _ x | SetAttackTime _ _ x | SetDecayTime _ _ x => finite x /\ 0 < val x
  | SetSampleRate _ _ x => finite x /\ 1 <= val x
  | Play _ _ x => finite x
  end.
Fixpoint inputs (h : list (env_op prec emax)) : list fl :=
  match h with [] => [] | Play _ _ x :: t => x :: inputs t | _ :: t => inputs t end.

Lemma lev_inf : lev (B754_infinity false) = bpow radix2 emax. Proof. reflexivity. Qed.
Lemma emax_big : 1 < bpow radix2 emax.
Proof. change 1 with (bpow radix2 0). apply bpow_lt. pose proof Hprec as P. pose proof Hmax as M. unfold Prec_gt_0, Prec_lt_emax in *. lia. Qed.
Lemma small_level (x : fl) : is_nan x = false -> 0 <= lev x <= 1 -> unit_level x.
Proof.
  intros N H. pose proof emax_big as E. destruct x as [s|[]| |s m e Hx]; try discriminate; cbn [level] in H; try lra.
  - split; [reflexivity|exact H].
  - split; [reflexivity|exact H].
Qed.
Lemma unit_facts x : unit_level x -> is_nan x = false /\ lev x = val x.
Proof. intros [F _]. split; [apply fin_not_nan, F|apply level_fin, F]. Qed.
Lemma zero_le x : le zero x <-> is_nan x = false /\ 0 <= lev x.
Proof. rewrite (le_iff prec emax). cbn. tauto. Qed.

Lemma max_bound v r : fmt v -> fmt r -> 0 <= v -> 0 <= r -> Rabs (rnd (v - r)) <= Rmax v r.
Proof.
  intros Fv Fr Hv Hr. apply Rabs_le. split.
  - rewrite <- (Ropp_involutive (rnd (v - r))). apply Ropp_le_contravar. rewrite <- (rnd_opp prec emax).
    apply Rle_trans with r; [|apply Rmax_r]. rewrite <- (rnd_id prec emax r) at 2 by exact Fr. apply (rnd_le prec emax). lra.
  - apply Rle_trans with v; [|apply Rmax_l]. rewrite <- (rnd_id prec emax v) at 2 by exact Fv. apply (rnd_le prec emax). lra.
Qed.
Lemma sub_no_overflow (v r : fl) : finite v -> finite r -> 0 <= val v -> 0 <= val r ->
  finite (fsub prec emax v r) /\ val (fsub prec emax v r) = rnd (val v - val r).
Proof.
  intros Fv Fr Hv Hr. destruct (sub_cases prec emax v r Fv Fr) as [[_ [V F]]|[O _]]; [split; auto|exfalso].
  pose proof (max_bound _ _ (fmt_val prec emax v) (fmt_val prec emax r) Hv Hr) as B.
  pose proof (val_bound prec emax v) as B1. pose proof (val_bound prec emax r) as B2.
  rewrite Rabs_right in B1, B2 by lra. apply (Rmax_lub_lt _ _ _ B1) in B2. lra.
Qed.
(** Adding a rate does not lower a level, subtracting one does not raise it. *)
Lemma raise (v r : fl) : unit_level v -> le zero r ->
  is_nan (fadd prec emax v r) = false /\ val v <= lev (fadd prec emax v r).
Proof.
  intros [Fv Hv] Hr. apply zero_le in Hr as [Nr Lr]. pose proof emax_big as E. destruct (is_finite r) eqn:Fr.
  - rewrite (level_fin prec emax r Fr) in Lr. destruct (add_cases prec emax v r Fv Fr) as [[_ [V F]]|[O [Q S]]].
    + split; [apply fin_not_nan, F|]. rewrite (level_fin prec emax _ F), V.
      rewrite <- (rnd_id prec emax (val v)) at 1 by apply (fmt_val prec emax). apply (rnd_le prec emax). lra.
    + change (fadd prec emax v r = B754_infinity (Bsign v)) in Q. rewrite Q. destruct (Bsign v) eqn:Sv; [exfalso|split; [reflexivity|rewrite lev_inf; lra]].
      assert (Z : forall x : fl, is_finite x = true -> Bsign x = true -> 0 <= val x -> val x = 0).
      { intros x Fx Sx Px. destruct x as [s|s| |s m e Hx]; try discriminate; [reflexivity|]. cbn in Sx. subst s.
        exfalso. assert (val (B754_finite true m e Hx) < 0); [|lra]. cbn. apply F2R_lt_0. reflexivity. }
      rewrite (Z v Fv Sv), (Z r Fr) in O by (lra || congruence).
      rewrite Rplus_0_l, (rnd_0 prec emax), Rabs_R0 in O. lra.
  - destruct r as [s|[]| |s m e H]; try discriminate; [cbn [level] in Lr; lra|].
    destruct v as [s|s| |s m e H]; try discriminate; (split; [reflexivity|cbn [fadd Bplus level]; lra]).
Qed.
Lemma lower (v r : fl) : unit_level v -> le zero r ->
  is_nan (fsub prec emax v r) = false /\ lev (fsub prec emax v r) <= val v.
Proof.
  intros [Fv Hv] Hr. apply zero_le in Hr as [Nr Lr]. pose proof emax_big as E. destruct (is_finite r) eqn:Fr.
  - rewrite (level_fin prec emax r Fr) in Lr. destruct (sub_no_overflow v r Fv Fr) as [F V]; [lra|lra|].
    split; [apply fin_not_nan, F|]. rewrite (level_fin prec emax _ F), V.
    rewrite <- (rnd_id prec emax (val v)) at 2 by apply (fmt_val prec emax). apply (rnd_le prec emax). lra.
  - destruct r as [s|[]| |s m e H]; try discriminate; [cbn [level] in Lr; lra|].
    destruct v as [s|s| |s m e H]; try discriminate; (split; [reflexivity|cbn [fsub Bminus negb level]; lra]).
Qed.

Lemma of_one : finite (of_Z prec emax 1) /\ val (of_Z prec emax 1) = 1.
Proof.
  pose proof Hprec as P. pose proof Hmax as M. unfold Prec_gt_0, Prec_lt_emax in P, M.
  destruct (of_Z_fin prec emax 1) as [F V]; [split; [lia|]; change 1%Z with (2 ^ 0)%Z at 1; apply Z.pow_le_mono_r; lia|].
  split; [exact F|]. rewrite V. apply (rnd_id prec emax). apply (fmt_1 prec emax).
Qed.
Lemma ratio_unit b : (1 <= b <= 2 ^ (emax - 1))%Z -> unit_level (fratio prec emax 1 b).
Proof.
  intros Hb. destruct of_one as [F1 V1]. destruct (of_Z_fin prec emax b) as [Fb Vb]; [lia|].
  assert (B : 1 <= val (of_Z prec emax b)).
  { rewrite Vb. rewrite <- (rnd_id prec emax 1) at 1 by apply (fmt_1 prec emax). apply (rnd_le prec emax). apply IZR_le. lia. }
  assert (Q : 0 <= 1 / val (of_Z prec emax b) <= 1).
  { split; [apply Rlt_le, Rdiv_lt_0_compat; lra|]. apply Rmult_le_reg_r with (val (of_Z prec emax b)); [lra|]. unfold Rdiv. rewrite !Rmult_1_l, Rinv_l; [lra|]. apply Rgt_not_eq. lra. }
  assert (R : 0 <= rnd (1 / val (of_Z prec emax b)) <= 1).
  { split; [apply (rnd_pos prec emax); lra|]. apply Rle_trans with (rnd 1); [apply (rnd_le prec emax); lra|]. rewrite (rnd_id prec emax 1) by apply (fmt_1 prec emax). lra. }
  pose proof emax_big as E. unfold fratio.
  destruct (div_cases prec emax (of_Z prec emax 1) (of_Z prec emax b) F1 ltac:(apply Rgt_not_eq; lra)) as [[_ [V [F _]]]|[O _]].
  - rewrite V1 in V. split; [exact F|]. rewrite V. exact R.
  - rewrite V1, Rabs_right in O by lra. lra.
Qed.

Lemma pos_sign (x : fl) : is_finite x = true -> 0 < val x -> Bsign x = false.
Proof.
  intros Fx Px. destruct x as [s|s| |[] m e Hx]; try discriminate; cbn in Px; try lra; [|reflexivity].
  exfalso. apply (Rlt_irrefl 0). apply Rlt_trans with (1 := Px). apply F2R_lt_0. reflexivity.
Qed.
(** Dividing a level by a positive time in samples gives a rate. *)
Lemma quotient_rate (a t sr : fl) : unit_level a -> finite t -> 0 < val t -> finite sr -> 1 <= val sr ->
  le zero (fdiv prec emax a (fmul prec emax t sr)).
Proof.
  intros [Fa Ha] Ft Ht Fs Hs. apply zero_le. pose proof emax_big as E.
  assert (P : val t <= rnd (val t * val sr)).
  { rewrite <- (rnd_id prec emax (val t)) at 1 by apply (fmt_val prec emax). apply (rnd_le prec emax). nra. }
  destruct (mul_cases prec emax t sr Ft Fs) as [[_ [V F]]|[_ Q]].
  - assert (Vp : 0 < val (fmul prec emax t sr)) by (rewrite V; lra).
    destruct (div_cases prec emax a (fmul prec emax t sr) Fa ltac:(apply Rgt_not_eq; lra)) as [[_ [W [G _]]]|[O Q]].
    + split; [apply fin_not_nan, G|]. rewrite (level_fin prec emax _ G), W. apply (rnd_pos prec emax).
      apply Rmult_le_pos; [lra|]. apply Rlt_le, Rinv_0_lt_compat. exact Vp.
    + rewrite Q.
      destruct (Req_dec (val a) 0) as [Z|Z].
      * exfalso. rewrite Z in O. unfold Rdiv in O. rewrite Rmult_0_l, (rnd_0 prec emax), Rabs_R0 in O. lra.
      * rewrite (pos_sign a Fa) by lra. rewrite (pos_sign _ F Vp). cbn. split; [reflexivity|lra].
  - rewrite Q, (pos_sign t Ft Ht), (pos_sign sr Fs) by lra. cbn [xorb].
    destruct a as [s|s| |s m e H]; try discriminate Fa; cbn [fdiv Bdiv is_nan level]; (split; [reflexivity|cbn; lra]).
Qed.

(** Scaling a rate. *)
Lemma scaled_rate (a r b : fl) : finite a -> 1 <= val a -> le zero r -> finite b -> 1 <= val b ->
  le zero (fdiv prec emax (fmul prec emax a r) b).
Proof.
  intros Fa Ha Hr Fb Hb. pose proof emax_big as E.
  assert (Sa : Bsign a = false) by (apply pos_sign; [exact Fa|lra]). assert (Sb : Bsign b = false) by (apply pos_sign; [exact Fb|lra]).
  assert (I : forall s, s = false -> le zero (fdiv prec emax (B754_infinity s) b)).
  { intros s ->. apply zero_le. destruct b as [sb|sb| |sb m e H]; try discriminate; cbn in Sb; subst; cbn [fdiv Bdiv is_nan level xorb]; [cbn in Hb; lra|].
    split; [reflexivity|cbn; lra]. }
  apply zero_le in Hr as [Nr Lr]. destruct (is_finite r) eqn:Fr.
  - rewrite (level_fin prec emax r Fr) in Lr.
    assert (W : 0 <= rnd (val a * val r)) by (apply (rnd_pos prec emax); nra).
    destruct (mul_cases prec emax a r Fa Fr) as [[_ [V F]]|[O Q]].
    + apply zero_le. destruct (div_cases prec emax (fmul prec emax a r) b F ltac:(apply Rgt_not_eq; lra)) as [[_ [W2 [G _]]]|[O Q]].
      * split; [apply fin_not_nan, G|]. rewrite (level_fin prec emax _ G), W2, V. apply (rnd_pos prec emax).
        apply Rmult_le_pos; [exact W|]. apply Rlt_le, Rinv_0_lt_compat. lra.
      * exfalso. pose proof (val_bound prec emax (fmul prec emax a r)) as B. rewrite V in O. rewrite V, Rabs_right in B by lra.
        assert (Z : 0 <= rnd (val a * val r) / val b <= rnd (val a * val r)).
        { split; [apply Rmult_le_pos; [exact W|apply Rlt_le, Rinv_0_lt_compat; lra]|]. unfold Rdiv.
          rewrite <- (Rmult_1_r (rnd (val a * val r))) at 2. apply Rmult_le_compat_l; [exact W|]. rewrite <- Rinv_1. apply Rinv_le_contravar; lra. }
        destruct Z as [Z1 Z2]. apply (rnd_le prec emax) in Z2. rewrite (rnd_id prec emax (rnd (val a * val r))) in Z2 by (rewrite <- V; apply (fmt_val prec emax)).
        rewrite Rabs_right in O by (apply Rle_ge, (rnd_pos prec emax), Z1). lra.
    + rewrite Q. apply I. destruct (Req_dec (val r) 0) as [Z|Z].
      * exfalso. rewrite Z, Rmult_0_r, (rnd_0 prec emax), Rabs_R0 in O. lra.
      * rewrite Sa, (pos_sign r Fr) by lra. reflexivity.
  - destruct r as [s|[]| |s m e H]; try discriminate; [cbn [level] in Lr; lra|].
    replace (fmul prec emax a (B754_infinity false)) with (@B754_infinity prec emax (xorb (Bsign a) false)); [rewrite Sa; apply I; reflexivity|].
    destruct a as [sb|sb| |sb m e H]; try discriminate; cbn in Ha; [lra|reflexivity].
Qed.

(** The invariant of all histories. *)
Record good (e : fadsr prec emax) : Prop := {
  g_value : unit_level (f_value _ _ e); g_target : unit_level (f_target _ _ e); g_sustain : unit_level (f_sustain _ _ e);
  g_attack : le zero (f_attack _ _ e); g_decay : le zero (f_decay _ _ e); g_release : le zero (f_release _ _ e);
  g_time : finite (f_rtime _ _ e); g_rate : finite (f_rate _ _ e) /\ 1 <= val (f_rate _ _ e) }.

Hypothesis Hemax : (31 <= emax)%Z.
Lemma unit_zero : unit_level zero. Proof. split; [reflexivity|cbn; lra]. Qed.
Lemma unit_one : unit_level (of_Z prec emax 1).
Proof. destruct of_one as [F V]. split; [exact F|]. lra. Qed.
Lemma unit_floor x : unit_level x -> unit_level (f_floor prec emax x).
Proof.
  intros H. unfold f_floor. destruct (flt prec emax _ x); [exact H|]. apply ratio_unit. split; [lia|].
  apply Z.le_trans with (2 ^ 30)%Z; [lia|]. apply Z.pow_le_mono_r; lia.
Qed.
Lemma unit_rate x : unit_level x -> le zero x.
Proof. intros [F H]. apply zero_le. split; [apply fin_not_nan, F|]. rewrite (level_fin prec emax _ F). lra. Qed.

Lemma good_new : good (f_new prec emax).
Proof.
  assert (P : (1024 <= 2 ^ (emax - 1))%Z) by (change 1024%Z with (2 ^ 10)%Z; apply Z.pow_le_mono_r; lia).
  constructor; cbn [f_new f_value f_target f_sustain f_attack f_decay f_release f_rtime f_rate].
  - apply unit_zero.
  - apply unit_zero.
  - apply ratio_unit; lia.
  - apply unit_rate, ratio_unit; lia.
  - apply unit_rate, ratio_unit; lia.
  - apply unit_rate, ratio_unit; lia.
  - unfold finite. rewrite is_finite_Bopp. apply of_one.
  - destruct (of_Z_fin prec emax 44100) as [F V]; [split; [lia|]; apply Z.le_trans with (2 ^ 30)%Z; [lia|apply Z.pow_le_mono_r; lia]|].
    split; [exact F|]. rewrite V. rewrite <- (rnd_id prec emax 1) at 1 by apply (fmt_1 prec emax). apply (rnd_le prec emax). lra.
Qed.

Lemma good_advance e : good e -> good (f_advance prec emax e).
Proof.
  intros [V T S A D R RT SR]. unfold f_advance.
  assert (K : forall st t w, unit_level t -> unit_level w ->
    good (mkAdsr prec emax st (f_rate _ _ e) t w (f_attack _ _ e) (f_decay _ _ e) (f_release _ _ e) (f_rtime _ _ e) (f_sustain _ _ e)))
    by (intros; constructor; auto).
  destruct (unit_facts _ V) as [Vn Vl]. destruct (unit_facts _ T) as [Tn Tl]. destruct (unit_facts _ S) as [Sn Sl].
  destruct V as [Vf Vv]. assert (V : unit_level (f_value _ _ e)) by (split; auto).
  destruct (f_state _ _ e).
  - constructor; auto.
  - destruct (raise _ _ V A) as [N L]. destruct (Bleb (f_target _ _ e) _) eqn:B; apply K; auto.
    apply small_level; [exact N|]. split; [lra|].
    destruct (Rle_lt_dec (lev (f_target _ _ e)) (lev (fadd prec emax (f_value _ _ e) (f_attack _ _ e)))) as [C|C].
    + rewrite (proj2 (leb_true prec emax _ _)) in B; [discriminate|auto].
    + destruct T as [_ T]. lra.
  - destruct (flt prec emax (f_sustain _ _ e) (f_value _ _ e)) eqn:C.
    + destruct (lower _ _ V D) as [N L]. destruct (Bleb _ (f_sustain _ _ e)) eqn:B; apply K; auto.
      apply small_level; [exact N|]. split; [|lra].
      destruct (Rle_lt_dec (lev (fsub prec emax (f_value _ _ e) (f_decay _ _ e))) (lev (f_sustain _ _ e))) as [C'|C'].
      * rewrite (proj2 (leb_true prec emax _ _)) in B; [discriminate|auto].
      * destruct S as [_ S]. lra.
    + destruct (raise _ _ V D) as [N L]. destruct (Bleb (f_sustain _ _ e) _) eqn:B; apply K; auto.
      apply small_level; [exact N|]. split; [lra|].
      destruct (Rle_lt_dec (lev (f_sustain _ _ e)) (lev (fadd prec emax (f_value _ _ e) (f_decay _ _ e)))) as [C'|C'].
      * rewrite (proj2 (leb_true prec emax _ _)) in B; [discriminate|auto].
      * destruct S as [_ S]. lra.
  - constructor; auto.
  - destruct (lower _ _ V R) as [N L]. destruct (Bleb _ zero) eqn:B; apply K; auto using unit_zero.
    apply small_level; [exact N|]. split; [|lra].
    destruct (Rle_lt_dec (lev (fsub prec emax (f_value _ _ e) (f_release _ _ e))) 0) as [C'|C']; [|lra].
    rewrite (proj2 (leb_true prec emax _ _)) in B; [discriminate|]. repeat split; auto.
Qed.

Lemma good_step e o : good e -> allowed o -> good (fst (env_step prec emax e o)) /\
  Forall2 (fun x y => finite y /\ Rabs (val y) <= Rabs (val x) /\ 0 <= val x * val y) (inputs [o]) (snd (env_step prec emax e o)).
Proof.
  intros G A. destruct o as [| |x|x|x|x|x|x|x|x|x|x|x]; cbn [allowed inputs env_step fst snd] in *; try (split; [|solve [constructor]]).
  - destruct G as [V T S At D R RT SR]. constructor; cbn; auto. destruct (Bleb _ _); auto using unit_one.
  - destruct G as [V T S At D R RT SR]. constructor; cbn; auto using unit_zero. destruct (flt prec emax zero (f_rtime _ _ e)) eqn:F; auto.
    apply (flt_yes prec emax), (lt_iff prec emax) in F. destruct F as [_ [_ F]]. rewrite (level_fin prec emax _ RT) in F. cbn in F.
    apply quotient_rate; tauto.
  - destruct G as [V T S At D R RT SR]. constructor; cbn; auto using unit_floor.
  - destruct G as [V T S At D R RT SR]. constructor; cbn; auto.
  - destruct G as [V T S At D R RT SR]. constructor; cbn; auto.
  - destruct G as [V T S At D R RT SR]. constructor; cbn; auto.
  - destruct G as [V T S At D R RT SR]. constructor; cbn; auto. unfold finite. rewrite is_finite_Bopp. apply of_one.
  - destruct G as [V T S At D R RT SR]. constructor; cbn; auto; [|tauto]. apply quotient_rate; tauto.
  - destruct G as [V T S At D R RT SR]. constructor; cbn; auto using unit_floor.
  - destruct G as [V T S At D R RT SR]. constructor; cbn; auto. apply quotient_rate; try tauto. apply unit_one.
  - destruct G as [V T S At D R RT SR]. constructor; cbn [f_value f_target f_sustain f_attack f_decay f_release f_rtime f_rate]; auto. apply quotient_rate; try tauto.
    destruct of_one as [F1 V1]. destruct S as [Fs Hs].
    destruct (sub_no_overflow (of_Z prec emax 1) (f_sustain _ _ e) F1 Fs) as [F W]; [lra|lra|]. split; [exact F|]. rewrite W, V1. split.
    + apply (rnd_pos prec emax). lra.
    + apply Rle_trans with (rnd 1); [apply (rnd_le prec emax); lra|]. rewrite (rnd_id prec emax 1) by apply (fmt_1 prec emax). lra.
  - destruct G as [V T S At D R RT [SR1 SR2]]. destruct A as [A1 A2]. constructor; cbn; auto; apply scaled_rate; auto.
  - pose proof (good_advance e G) as G'. split; [exact G'|]. constructor; [|constructor].
    destruct (g_value _ G') as [Fv Hv]. set (v := f_value _ _ (f_advance prec emax e)) in *.
    assert (B : Rabs (rnd (val v * val x)) <= Rabs (val x)).
    { rewrite <- (round_NE_abs radix2 (FLT_exp (3 - emax - prec) prec)). rewrite <- (rnd_id prec emax (Rabs (val x))) by (apply generic_format_abs, (fmt_val prec emax)).
      apply (rnd_le prec emax). rewrite Rabs_mult, (Rabs_right (val v)) by lra. pose proof (Rabs_pos (val x)). nra. }
    destruct (mul_cases prec emax v x Fv A) as [[_ [V F]]|[O _]].
    + split; [exact F|]. rewrite V. split; [exact B|].
      destruct (Rle_lt_dec 0 (val x)) as [P|P].
      * apply Rmult_le_pos; [exact P|]. apply (rnd_pos prec emax). nra.
      * assert (rnd (val v * val x) <= 0) by (rewrite <- (rnd_0 prec emax); apply (rnd_le prec emax); nra). nra.
    + exfalso. pose proof (val_bound prec emax x). lra.
Qed.

Lemma good_run h : forall e, good e -> Forall allowed h -> good (fst (run e h)) /\
  Forall2 (fun x y => finite y /\ Rabs (val y) <= Rabs (val x) /\ 0 <= val x * val y) (inputs h) (snd (run e h)).
Proof.
  induction h as [|o h IH]; intros e G A; [split; [exact G|constructor]|].
  inversion A as [|? ? Ho Hh]; subst. destruct (good_step e o G Ho) as [G' F]. cbn [env_history fst snd].
  destruct (IH _ G' Hh) as [G'' F']. split; [exact G''|].
  replace (inputs (o :: h)) with (inputs [o] ++ inputs h) by (destruct o; reflexivity). apply Forall2_app; assumption.
Qed.

(** An envelope never amplifies: after any history of calls with levels up to full scale and rates that
    are not negative (infinite ones included), its value is a number between 0 and 1, and every output
    is a finite number no larger in magnitude than its input and of the same sign or zero. *)
Theorem C129_range h : Forall allowed h ->
  unit_level (f_value _ _ (fst (run (f_new prec emax) h))) /\
  Forall2 (fun x y => finite y /\ Rabs (val y) <= Rabs (val x) /\ 0 <= val x * val y) (inputs h) (snd (run (f_new prec emax) h)).
Proof.
  intros A. destruct (good_run h _ good_new A) as [G H]. split; [apply (g_value _ G)|exact H].
Qed.

(** One step up or down that does not reach the end of the segment. *)
Lemma up_step (v r T : fl) : unit_level v -> unit_level T -> finite r -> 0 <= val r -> Bleb T (fadd prec emax v r) = false ->
  unit_level (fadd prec emax v r) /\ val v + (val r - u * val T) <= val (fadd prec emax v r) < val T.
Proof.
  intros Hv Ht Fr Hr B. destruct (raise v r Hv) as [N L]; [apply zero_le; split; [apply fin_not_nan, Fr|rewrite (level_fin prec emax _ Fr); lra]|].
  destruct (unit_facts _ Ht) as [Tn Tl].
  assert (C : lev (fadd prec emax v r) < val T).
  { destruct (Rle_lt_dec (val T) (lev (fadd prec emax v r))) as [C|C]; [|exact C].
    rewrite (proj2 (leb_true prec emax _ _)) in B; [discriminate|]. rewrite Tl. auto. }
  destruct Hv as [Fv Hv]. destruct Ht as [Ft Ht].
  assert (U : unit_level (fadd prec emax v r)) by (apply small_level; [exact N|lra]).
  split; [exact U|]. destruct (unit_facts _ U) as [_ Ul]. rewrite Ul in C. split; [|exact C].
  destruct (add_cases prec emax v r Fv Fr) as [[_ [V F]]|[_ [Q _]]]; [|rewrite Q in U; destruct U as [U _]; discriminate].
  assert (D : val v + val r < val T).
  { destruct (Rle_lt_dec (val T) (val v + val r)) as [D|D]; [|exact D]. apply (rnd_le prec emax) in D. rewrite (rnd_id prec emax) in D by apply (fmt_val prec emax). lra. }
  pose proof (add_err prec emax (val v) (val r) (fmt_val prec emax _) (fmt_val prec emax _)) as E. rewrite <- (roundoff_u prec) in E.
  rewrite (Rabs_right (val v + val r)) in E by lra. apply Rabs_le_inv in E. rewrite V.
  assert (0 < u) by apply (roundoff_pos prec). nra.
Qed.
Lemma down_step (v r S : fl) : unit_level v -> unit_level S -> finite r -> 0 <= val r -> Bleb (fsub prec emax v r) S = false ->
  unit_level (fsub prec emax v r) /\ val S < val (fsub prec emax v r) <= val v - (val r - u * val v).
Proof.
  intros Hv Hs Fr Hr B. destruct (unit_facts _ Hs) as [Sn Sl]. destruct Hv as [Fv Hv]. destruct Hs as [Fs Hs].
  destruct (sub_no_overflow v r Fv Fr) as [F V]; [lra|lra|].
  assert (C : val S < val (fsub prec emax v r)).
  { destruct (Rle_lt_dec (val (fsub prec emax v r)) (val S)) as [C|C]; [|exact C].
    rewrite (proj2 (leb_true prec emax _ _)) in B; [discriminate|]. rewrite Sl, (level_fin prec emax _ F). auto using fin_not_nan. }
  assert (D : val S < val v - val r).
  { destruct (Rle_lt_dec (val v - val r) (val S)) as [D|D]; [|exact D]. apply (rnd_le prec emax) in D. rewrite (rnd_id prec emax (val S)) in D by apply (fmt_val prec emax). lra. }
  pose proof (add_err prec emax (val v) (- val r) (fmt_val prec emax _) (generic_format_opp _ _ _ (fmt_val prec emax _))) as E. rewrite <- (roundoff_u prec) in E.
  change (val v + - val r) with (val v - val r) in E. rewrite (Rabs_right (val v - val r)) in E by lra. apply Rabs_le_inv in E.
  assert (0 < u) by apply (roundoff_pos prec).
  assert (W : val (fsub prec emax v r) <= val v).
  { rewrite V, <- (rnd_id prec emax (val v)) by apply (fmt_val prec emax). apply (rnd_le prec emax). rewrite (rnd_id prec emax (val v)) by apply (fmt_val prec emax). lra. }
  split; [split; [exact F|lra]|]. split; [exact C|]. rewrite V. nra.
Qed.

Definition plays (xs : list fl) : list (env_op prec emax) := map (Play prec emax) xs.
Definition after (e : fadsr prec emax) (xs : list fl) : fadsr prec emax := fst (run e (plays xs)).

(** How many samples a segment takes.  An attack whose rate exceeds half a unit in the last place of
    the target reaches exactly the target, within the number of samples the rate promises once the
    rounding is taken off the rate; and then the decay begins, towards the sustain level. *)
Theorem C129_attack_ends e xs : f_state _ _ e = FAttack -> unit_level (f_value _ _ e) -> unit_level (f_target _ _ e) ->
  finite (f_attack _ _ e) -> 0 <= val (f_attack _ _ e) ->
  val (f_target _ _ e) - val (f_value _ _ e) <= INR (length xs) * (val (f_attack _ _ e) - u * val (f_target _ _ e)) ->
  xs <> [] ->
  exists k, (k <= length xs)%nat /\ f_value _ _ (after e (firstn k xs)) = f_target _ _ e /\
    f_state _ _ (after e (firstn k xs)) = FDecay /\ f_target _ _ (after e (firstn k xs)) = f_sustain _ _ e.
Proof.
  revert e. induction xs as [|x xs IH]; intros e St V T Fr Hr N X; [congruence|]. clear X.
  destruct (Bleb (f_target _ _ e) (fadd prec emax (f_value _ _ e) (f_attack _ _ e))) eqn:B.
  - exists 1%nat. split; [cbn; lia|]. cbn. unfold f_advance. rewrite St, B. auto.
  - destruct (up_step _ _ _ V T Fr Hr B) as [U [L G]].
    set (e' := f_advance prec emax e).
    assert (E : e' = mkAdsr prec emax FAttack (f_rate _ _ e) (f_target _ _ e) (fadd prec emax (f_value _ _ e) (f_attack _ _ e))
      (f_attack _ _ e) (f_decay _ _ e) (f_release _ _ e) (f_rtime _ _ e) (f_sustain _ _ e)) by (unfold e', f_advance; rewrite St, B; reflexivity).
    cbn [length] in N. rewrite S_INR in N.
    destruct (IH e') as [k [K1 K2]]; rewrite ?E; cbn [f_state f_value f_target f_attack]; auto; [lra| |].
    + intros ->. cbn in N. lra.
    + exists (S k). split; [cbn; lia|]. cbn [firstn]. rewrite E in K2 at 1. rewrite E in K2 at 2. cbn in K2.
      unfold after, plays in *. cbn [map env_history env_step fst]. fold e'. destruct K2 as [K2 [K3 K4]]. rewrite E in *. auto.
Qed.
(** A release of a rate above half a unit in the last place of the value reaches exactly zero and then
    the envelope is idle. *)
Theorem C129_release_ends e xs v0 : f_state _ _ e = FRelease -> unit_level (f_value _ _ e) -> val (f_value _ _ e) <= v0 ->
  finite (f_release _ _ e) -> 0 <= val (f_release _ _ e) ->
  val (f_value _ _ e) <= INR (length xs) * (val (f_release _ _ e) - u * v0) -> xs <> [] ->
  exists k, (k <= length xs)%nat /\ f_value _ _ (after e (firstn k xs)) = zero /\ f_state _ _ (after e (firstn k xs)) = FIdle.
Proof.
  revert e. induction xs as [|x xs IH]; intros e St V V0 Fr Hr N X; [congruence|]. clear X.
  destruct (Bleb (fsub prec emax (f_value _ _ e) (f_release _ _ e)) zero) eqn:B.
  - exists 1%nat. split; [cbn; lia|]. cbn. unfold f_advance. rewrite St, B. auto.
  - destruct (down_step _ _ _ V unit_zero Fr Hr B) as [U [L G]].
    set (e' := f_advance prec emax e).
    assert (E : e' = mkAdsr prec emax FRelease (f_rate _ _ e) (f_target _ _ e) (fsub prec emax (f_value _ _ e) (f_release _ _ e))
      (f_attack _ _ e) (f_decay _ _ e) (f_release _ _ e) (f_rtime _ _ e) (f_sustain _ _ e)) by (unfold e', f_advance; rewrite St, B; reflexivity).
    assert (P : 0 < u) by apply (roundoff_pos prec). cbn [length] in N. rewrite S_INR in N. cbn in L.
    assert (Q : u * val (f_value _ _ e) <= u * v0) by (apply Rmult_le_compat_l; lra).
    destruct V as [Fv Hv].
    assert (W : val (fsub prec emax (f_value _ _ e) (f_release _ _ e)) <= val (f_value _ _ e)).
    { destruct (lower (f_value _ _ e) (f_release _ _ e)) as [_ Lw]; [split; auto|apply zero_le; split; [apply fin_not_nan, Fr|rewrite (level_fin prec emax _ Fr); lra]|].
      rewrite (proj2 (unit_facts _ U)) in Lw. exact Lw. }
    destruct (IH e') as [k [K1 K2]]; rewrite ?E; cbn [f_state f_value f_target f_release]; auto; [lra|lra| |].
    + intros ->. cbn in N. lra.
    + exists (S k). split; [cbn; lia|]. cbn [firstn].
      unfold after, plays in *. cbn [map env_history env_step fst]. exact K2.
Qed.
(** And a decay, from above or from below, ends on exactly the sustain level. *)
Theorem C129_decay_ends e xs v0 : f_state _ _ e = FDecay -> unit_level (f_value _ _ e) -> unit_level (f_sustain _ _ e) ->
  val (f_value _ _ e) <= v0 -> val (f_sustain _ _ e) <= v0 -> finite (f_decay _ _ e) -> 0 <= val (f_decay _ _ e) ->
  Rabs (val (f_value _ _ e) - val (f_sustain _ _ e)) <= INR (length xs) * (val (f_decay _ _ e) - u * v0) -> xs <> [] ->
  exists k, (k <= length xs)%nat /\ f_value _ _ (after e (firstn k xs)) = f_sustain _ _ e /\ f_state _ _ (after e (firstn k xs)) = FSustain.
Proof.
  revert e. induction xs as [|x xs IH]; intros e St V Su V0 S0 Fr Hr N X; [congruence|]. clear X.
  assert (P : 0 < u) by apply (roundoff_pos prec). destruct (unit_facts _ V) as [Vn Vl]. destruct (unit_facts _ Su) as [Sn Sl].
  destruct (flt prec emax (f_sustain _ _ e) (f_value _ _ e)) eqn:C.
  - apply (flt_yes prec emax) in C as C'. apply (lt_iff prec emax) in C'. rewrite Vl, Sl in C'. destruct C' as [_ [_ C']].
    destruct (Bleb (fsub prec emax (f_value _ _ e) (f_decay _ _ e)) (f_sustain _ _ e)) eqn:B.
    + exists 1%nat. split; [cbn; lia|]. cbn. unfold f_advance. rewrite St, C, B. auto.
    + destruct (down_step _ _ _ V Su Fr Hr B) as [U [L G]].
      set (e' := f_advance prec emax e).
      assert (E : e' = mkAdsr prec emax FDecay (f_rate _ _ e) (f_target _ _ e) (fsub prec emax (f_value _ _ e) (f_decay _ _ e))
        (f_attack _ _ e) (f_decay _ _ e) (f_release _ _ e) (f_rtime _ _ e) (f_sustain _ _ e)) by (unfold e', f_advance; rewrite St, C, B; reflexivity).
      cbn [length] in N. rewrite S_INR in N. rewrite Rabs_right in N by lra.
      assert (Q : u * val (f_value _ _ e) <= u * v0) by (apply Rmult_le_compat_l; lra).
      assert (W : val (fsub prec emax (f_value _ _ e) (f_decay _ _ e)) <= val (f_value _ _ e)).
      { destruct (lower (f_value _ _ e) (f_decay _ _ e)) as [_ Lw]; [exact V|apply zero_le; split; [apply fin_not_nan, Fr|rewrite (level_fin prec emax _ Fr); lra]|].
        rewrite (proj2 (unit_facts _ U)) in Lw. exact Lw. }
      destruct (IH e') as [k [K1 K2]]; rewrite ?E; cbn [f_state f_value f_sustain f_decay]; auto; [lra|rewrite Rabs_right by lra; lra| |].
      * intros ->. cbn in N. lra.
      * exists (S k). split; [cbn; lia|]. cbn [firstn].
        unfold after, plays in *. cbn [map env_history env_step fst]. fold e'. rewrite E in *. exact K2.
  - apply (flt_no prec emax) in C as C'; auto. rewrite Vl, Sl in C'.
    destruct (Bleb (f_sustain _ _ e) (fadd prec emax (f_value _ _ e) (f_decay _ _ e))) eqn:B.
    + exists 1%nat. split; [cbn; lia|]. cbn. unfold f_advance. rewrite St, C, B. auto.
    + destruct (up_step _ _ _ V Su Fr Hr B) as [U [L G]].
      set (e' := f_advance prec emax e).
      assert (E : e' = mkAdsr prec emax FDecay (f_rate _ _ e) (f_target _ _ e) (fadd prec emax (f_value _ _ e) (f_decay _ _ e))
        (f_attack _ _ e) (f_decay _ _ e) (f_release _ _ e) (f_rtime _ _ e) (f_sustain _ _ e)) by (unfold e', f_advance; rewrite St, C, B; reflexivity).
      cbn [length] in N. rewrite S_INR in N. rewrite Rabs_minus_sym, Rabs_right in N by lra.
      assert (Q : u * val (f_sustain _ _ e) <= u * v0) by (apply Rmult_le_compat_l; lra).
      destruct (IH e') as [k [K1 K2]]; rewrite ?E; cbn [f_state f_value f_sustain f_decay]; auto; [lra|rewrite Rabs_minus_sym, Rabs_right by lra; lra| |].
      * intros ->. cbn in N. lra.
      * exists (S k). split; [cbn; lia|]. cbn [firstn].
        unfold after, plays in *. cbn [map env_history env_step fst]. fold e'. rewrite E in *. exact K2.
Qed.

Lemma firstn_snoc (l : list fl) : forall k, (k < length l)%nat -> exists q, firstn (S k) l = firstn k l ++ [q].
Proof.
  induction l as [|a l IH]; intros k H; [cbn in H; lia|]. destruct k as [|k]; [exists a; reflexivity|].
  destruct (IH k) as [q Q]; [cbn in H; lia|]. exists q. change (firstn (S (S k)) (a :: l)) with (a :: firstn (S k) l). rewrite Q. reflexivity.
Qed.
(** The setters, seen from outside. *)
Lemma run_app h1 : forall e h2, fst (run e (h1 ++ h2)) = fst (run (fst (run e h1)) h2).
Proof. induction h1 as [|o h1 IH]; intros e h2; [reflexivity|]. cbn [app env_history fst]. apply IH. Qed.
Lemma advance_keeps e : let e' := f_advance prec emax e in
  f_rate _ _ e' = f_rate _ _ e /\ f_attack _ _ e' = f_attack _ _ e /\ f_decay _ _ e' = f_decay _ _ e /\ f_release _ _ e' = f_release _ _ e /\
  f_rtime _ _ e' = f_rtime _ _ e /\ f_sustain _ _ e' = f_sustain _ _ e.
Proof.
  cbv zeta. unfold f_advance. destruct (f_state _ _ e); try (repeat split; reflexivity).
  - destruct (Bleb _ _); repeat split; reflexivity.
  - destruct (flt _ _ _ _); destruct (Bleb _ _); repeat split; reflexivity.
  - destruct (Bleb _ _); repeat split; reflexivity.
Qed.
Lemma after_keeps xs : forall e, f_decay _ _ (after e xs) = f_decay _ _ e /\ f_sustain _ _ (after e xs) = f_sustain _ _ e.
Proof.
  induction xs as [|x xs IH]; intros e; [split; reflexivity|]. unfold after, plays in *. cbn [map env_history env_step fst].
  destruct (IH (f_advance prec emax e)) as [A B]. destruct (advance_keeps e) as [_ [_ [C [_ [_ D]]]]]. rewrite A, B. auto.
Qed.
Lemma after_app xs ys e : after e (xs ++ ys) = after (after e xs) ys.
Proof. unfold after, plays. rewrite map_app. apply run_app. Qed.
Lemma hold xs : forall e, f_state _ _ e = FSustain \/ f_state _ _ e = FIdle -> after e xs = e.
Proof.
  induction xs as [|x xs IH]; intros e H; [reflexivity|]. unfold after, plays in *. cbn [map env_history env_step fst].
  replace (f_advance prec emax e) with e by (unfold f_advance; destruct H as [-> | ->]; reflexivity). apply IH, H.
Qed.
(** Calls that leave the release alone, and the sample rate last set. *)
Definition keeps_release (o : env_op prec emax) : Prop :=
  match o with SetReleaseRate _ _ _ | SetReleaseTime _ _ _ | SetSampleRate _ _ _ => False | _ => True end.
Fixpoint last_rate (r : fl) (h : list (env_op prec emax)) : fl :=
  match h with [] => r | SetSampleRate _ _ x :: t => last_rate x t | _ :: t => last_rate r t end.
Lemma rate_history h : forall e, f_rate _ _ (fst (run e h)) = last_rate (f_rate _ _ e) h.
Proof.
  induction h as [|o h IH]; intros e; [reflexivity|]. cbn [env_history fst]. rewrite IH.
  destruct o; try reflexivity. cbn [env_step fst last_rate]. f_equal. apply advance_keeps.
Qed.
Lemma kept_time h : forall e, Forall keeps_release h -> f_rtime _ _ (fst (run e h)) = f_rtime _ _ e /\ f_rate _ _ (fst (run e h)) = f_rate _ _ e /\
  (flt prec emax zero (f_rtime _ _ e) = false -> f_release _ _ (fst (run e h)) = f_release _ _ e).
Proof.
  induction h as [|o h IH]; intros e H; [split; [|split]; reflexivity|]. inversion H as [|? ? Ho Hh]; subst. cbn [env_history fst].
  assert (K : f_rtime _ _ (fst (env_step prec emax e o)) = f_rtime _ _ e /\ f_rate _ _ (fst (env_step prec emax e o)) = f_rate _ _ e /\
    (flt prec emax zero (f_rtime _ _ e) = false -> f_release _ _ (fst (env_step prec emax e o)) = f_release _ _ e)).
  { destruct o; cbn [keeps_release] in Ho; try contradiction; cbn [env_step fst f_rtime f_rate f_release]; try (repeat split; reflexivity).
    - split; [reflexivity|]. split; [reflexivity|]. intros ->. reflexivity.
    - destruct (advance_keeps e) as [A [_ [_ [B [C _]]]]]. auto. }
  destruct K as [K1 [K2 K3]]. destruct (IH (fst (env_step prec emax e o)) Hh) as [A [B C]]. rewrite A, B, K1, K2. split; [reflexivity|]. split; [reflexivity|].
  intros Z. rewrite C by (rewrite K1; exact Z). apply K3, Z.
Qed.

(** The release time: once the key is up, the envelope is silent, and stays silent, after t times the
    sample rate samples, up to the rounding.  [p] is that number of samples, [v] the level at which
    the key is released. *)
Theorem C129_release_time h t h2 xs : Forall allowed h -> finite t -> 0 < val t -> Forall allowed h2 -> Forall keeps_release h2 ->
  let sr := val (last_rate (of_Z prec emax 44100) h) in
  let held := fst (run (f_new prec emax) (h ++ SetReleaseTime _ _ t :: h2)) in
  let released := fst (run (f_new prec emax) (h ++ SetReleaseTime _ _ t :: h2 ++ [KeyOff _ _])) in
  let v := val (f_value _ _ held) in
  let p := val t * sr * (1 + u) + smallest prec emax in
  1 <= val t * sr -> p < bpow radix2 emax -> smallest prec emax * p <= 2 * u * v ->
  p <= INR (length xs) * (1 - 2 * u - u * p) ->
  exists k, (k <= length xs)%nat /\ forall ys, f_value _ _ (after released (firstn k xs ++ ys)) = zero /\ f_state _ _ (after released (firstn k xs ++ ys)) = FIdle.
Proof.
  intros A Ft Ht A2 K2 sr held released v p H1 Hp Hs2 Hn.
  assert (G0 : good (fst (run (f_new prec emax) h))) by (apply good_run; [apply good_new|exact A]).
  assert (SR : f_rate _ _ (fst (run (f_new prec emax) h)) = last_rate (of_Z prec emax 44100) h) by (rewrite rate_history; reflexivity).
  destruct (g_rate _ G0) as [Fs Hs]. rewrite SR in Fs, Hs. fold sr in Hs. set (s := last_rate (of_Z prec emax 44100) h) in *.
  assert (G : good held).
  { apply good_run; [apply good_new|]. apply Forall_app. split; [exact A|]. constructor; [split; auto|exact A2]. }
  assert (RT : f_rtime _ _ held = t /\ f_rate _ _ held = s).
  { unfold held. rewrite run_app. cbn [env_history fst]. destruct (kept_time h2 (fst (env_step prec emax (fst (run (f_new prec emax) h)) (SetReleaseTime prec emax t))) K2) as [P [Q _]].
    rewrite P, Q. cbn [env_step fst f_rtime f_rate]. split; [reflexivity|exact SR]. }
  destruct RT as [RT RS]. destruct (g_value _ G) as [Fv Hv]. fold v in Hv.
  pose proof (roundoff_pos prec) as U.
  assert (Tp : 0 < smallest prec emax) by (rewrite (smallest_tiny prec emax); apply bpow_gt_0).
  assert (Lt : flt prec emax zero t = true).
  { apply (lt_iff prec emax). split; [reflexivity|]. split; [apply fin_not_nan, Ft|]. rewrite (level_fin prec emax _ Ft). exact Ht. }
  assert (E1 : released = mkAdsr prec emax FRelease s zero (f_value _ _ held) (f_attack _ _ held) (f_decay _ _ held)
      (fdiv prec emax (f_value _ _ held) (fmul prec emax t s)) t (f_sustain _ _ held)).
  { unfold released. rewrite app_comm_cons, app_assoc, run_app. fold held. cbn [env_history env_step fst]. rewrite RT, RS, Lt. reflexivity. }
  set (P := rnd (val t * val s)).
  assert (P1 : 1 <= P).
  { unfold P. rewrite <- (rnd_id prec emax 1) by apply (fmt_1 prec emax). apply (rnd_le prec emax). exact H1. }
  assert (P2 : P <= p).
  { pose proof (rnd_err prec emax (val t * val s)) as D. rewrite <- (roundoff_u prec), <- (smallest_tiny prec emax) in D.
    fold sr in D. rewrite (Rabs_right (val t * sr)) in D by lra. apply Rabs_le_inv in D. unfold P, p. fold sr. lra. }
  destruct (mul_cases prec emax t s Ft Fs) as [[_ [Vp Fp]]|[O _]]; [|exfalso; fold P in O; rewrite Rabs_right in O by lra; lra].
  fold P in Vp. set (w := fmul prec emax t s) in *.
  assert (I : 0 < / P <= 1) by (split; [apply Rinv_0_lt_compat; lra|rewrite <- Rinv_1; apply Rinv_le_contravar; lra]).
  assert (Q : 0 <= v / P <= 1) by (unfold Rdiv; split; nra).
  assert (Q2 : 0 <= rnd (v / P) <= 1).
  { split; [apply (rnd_pos prec emax); lra|]. apply Rle_trans with (rnd 1); [apply (rnd_le prec emax); lra|]. rewrite (rnd_id prec emax 1) by apply (fmt_1 prec emax). lra. }
  pose proof emax_big as Eb.
  destruct (div_cases prec emax (f_value _ _ held) w Fv ltac:(rewrite Vp; apply Rgt_not_eq; lra)) as [[_ [Vq [Fq _]]]|[O _]]; [|exfalso; rewrite Vp in O; fold v in O; rewrite Rabs_right in O by lra; lra].
  rewrite Vp in Vq. fold v in Vq. clearbody P.
  pose proof (rnd_err prec emax (v / P)) as D. rewrite <- (roundoff_u prec), <- (smallest_tiny prec emax) in D.
  rewrite (Rabs_right (v / P)) in D by lra. apply Rabs_le_inv in D.
  assert (T2 : smallest prec emax / 2 <= u * (v / P)).
  { apply Rmult_le_reg_r with P; [lra|]. unfold Rdiv. replace (u * (v * / P) * P) with (u * v) by (field; apply Rgt_not_eq; lra). nra. }
  assert (B : v / P * (1 - 2 * u - u * p) <= rnd (v / P) - u * v).
  { assert (u * v <= v / P * (u * p)); [|lra]. replace (u * v) with (v / P * (u * P)) by (field; apply Rgt_not_eq; lra). apply Rmult_le_compat_l; [lra|]. apply Rmult_le_compat_l; lra. }
  assert (N : v <= INR (length xs) * (rnd (v / P) - u * v)).
  { apply Rle_trans with (INR (length xs) * (v / P * (1 - 2 * u - u * p))); [|apply Rmult_le_compat_l; [apply pos_INR|exact B]].
    replace v with (v / P * P) at 1 by (field; apply Rgt_not_eq; lra). replace (INR (length xs) * (v / P * (1 - 2 * u - u * p))) with (v / P * (INR (length xs) * (1 - 2 * u - u * p))) by ring.
    apply Rmult_le_compat_l; lra. }
  destruct (C129_release_ends released xs v) as [k [K [Kv Ks]]]; try (rewrite E1; cbn [f_state f_value f_release]).
  - reflexivity.
  - split; auto.
  - apply Rle_refl.
  - exact Fq.
  - rewrite Vq. lra.
  - rewrite Vq. exact N.
  - intros ->. cbn in Hn. lra.
  - rewrite <- E1. exists k. split; [exact K|]. intros ys. rewrite after_app, hold by (right; exact Ks). auto.
Qed.
(** A release rate overrides the release time: the level falls by that rate. *)
Theorem C129_release_rate h r h2 xs : Forall allowed h -> finite r -> 0 <= val r -> Forall allowed h2 -> Forall keeps_release h2 ->
  let held := fst (run (f_new prec emax) (h ++ SetReleaseRate _ _ r :: h2)) in
  let released := fst (run (f_new prec emax) (h ++ SetReleaseRate _ _ r :: h2 ++ [KeyOff _ _])) in
  let v := val (f_value _ _ held) in
  v <= INR (length xs) * (val r - u * v) -> xs <> [] ->
  exists k, (k <= length xs)%nat /\ forall ys, f_value _ _ (after released (firstn k xs ++ ys)) = zero /\ f_state _ _ (after released (firstn k xs ++ ys)) = FIdle.
Proof.
  intros A Fr Hr A2 K2 held released v Hn X.
  assert (G : good held).
  { apply good_run; [apply good_new|]. apply Forall_app. split; [exact A|]. constructor; [|exact A2].
    apply zero_le. split; [apply fin_not_nan, Fr|rewrite (level_fin prec emax _ Fr); lra]. }
  assert (NT : flt prec emax zero (Bopp (of_Z prec emax 1)) = false).
  { destruct of_one as [F V]. destruct (flt prec emax zero (Bopp (of_Z prec emax 1))) eqn:L; [|reflexivity].
    apply (flt_yes prec emax), (lt_iff prec emax) in L. destruct L as [_ [_ L]]. rewrite (level_fin prec emax (Bopp (of_Z prec emax 1))) in L by (rewrite is_finite_Bopp; exact F).
    rewrite B2R_Bopp, V in L. cbn in L. lra. }
  assert (RT : f_rtime _ _ held = Bopp (of_Z prec emax 1) /\ f_release _ _ held = r).
  { unfold held. rewrite run_app. cbn [env_history fst]. destruct (kept_time h2 (fst (env_step prec emax (fst (run (f_new prec emax) h)) (SetReleaseRate prec emax r))) K2) as [P [_ Q]].
    rewrite P, Q by exact NT. split; reflexivity. }
  destruct RT as [RT RR]. destruct (g_value _ G) as [Fv Hv]. fold v in Hv.
  assert (E1 : released = mkAdsr prec emax FRelease (f_rate _ _ held) zero (f_value _ _ held) (f_attack _ _ held) (f_decay _ _ held) r (f_rtime _ _ held) (f_sustain _ _ held)).
  { unfold released. rewrite app_comm_cons, app_assoc, run_app. fold held. cbn [env_history env_step fst]. rewrite RT, NT, RR. reflexivity. }
  destruct (C129_release_ends released xs v) as [k [K [Kv Ks]]]; try (rewrite E1; cbn [f_state f_value f_release]); auto.
  - split; auto.
  - apply Rle_refl.
  - rewrite <- E1. exists k. split; [exact K|]. intros ys. rewrite after_app, hold by (right; exact Ks). auto.
Qed.
(** Setting a target: the envelope settles on it exactly (on 10^-9 if it is smaller) and stays there,
    with the attack rate if it is above the present level and with the decay rate if it is below.
    If it equals the present level nothing is started. *)
Theorem C129_set_target h x xs : Forall allowed h -> unit_level x ->
  let before := fst (run (f_new prec emax) h) in
  let set := fst (run (f_new prec emax) (h ++ [SetTarget _ _ x])) in
  let floor := fratio prec emax 1 1000000000 in
  let target := if Rlt_dec (val floor) (val x) then x else floor in
  let v := val (f_value _ _ before) in
  (v < val target /\ finite (f_attack _ _ before) /\ val target - v <= INR (length xs - 1) * (val (f_attack _ _ before) - u * val target) \/
   val target < v /\ finite (f_decay _ _ before) /\ v - val target <= INR (length xs) * (val (f_decay _ _ before) - u * v)) ->
  exists k, (k <= length xs)%nat /\ forall ys, f_value _ _ (after set (firstn k xs ++ ys)) = target.
Proof.
  intros A Hx before set floor target v H.
  assert (G : good before) by (apply good_run; [apply good_new|exact A]).
  assert (Uf : unit_level floor).
  { apply ratio_unit. split; [lia|]. apply Z.le_trans with (2 ^ 30)%Z; [lia|]. apply Z.pow_le_mono_r; lia. }
  destruct (unit_facts _ Hx) as [Xn Xl]. destruct (unit_facts _ Uf) as [Fn Fl].
  assert (Et : f_floor prec emax x = target).
  { unfold f_floor, target. fold floor. destruct (flt prec emax floor x) eqn:L; destruct (Rlt_dec (val floor) (val x)) as [D|D]; auto.
    - apply (flt_yes prec emax), (lt_iff prec emax) in L. rewrite Xl, Fl in L. tauto.
    - apply (flt_no prec emax) in L; auto. rewrite Xl, Fl in L. lra. }
  assert (Ut : unit_level target) by (rewrite <- Et; apply unit_floor, Hx).
  destruct (unit_facts _ Ut) as [Tn Tl]. destruct (g_value _ G) as [Fv Hv]. fold v in Hv.
  destruct (unit_facts _ (g_value _ G)) as [Vn Vl]. fold v in Vl.
  assert (Es : set = mkAdsr prec emax (if flt prec emax (f_value _ _ before) target then FAttack else if flt prec emax target (f_value _ _ before) then FDecay else f_state _ _ before)
    (f_rate _ _ before) target (f_value _ _ before) (f_attack _ _ before) (f_decay _ _ before) (f_release _ _ before) (f_rtime _ _ before) target).
  { unfold set. rewrite run_app. fold before. cbn [env_history env_step fst]. rewrite Et. reflexivity. }
  pose proof (proj1 (zero_le _) (g_attack _ G)) as [_ At]. pose proof (proj1 (zero_le _) (g_decay _ G)) as [Dn De].
  destruct H as [[L [Fa N]]|[L [Fd N]]].
  - assert (LB : flt prec emax (f_value _ _ before) target = true) by (apply (lt_iff prec emax); rewrite Vl, Tl; auto).
    rewrite LB in Es. rewrite (level_fin prec emax _ Fa) in At.
    destruct xs as [|y xs]; [cbn in N; lra|]. cbn [length] in N. rewrite Nat.sub_succ, Nat.sub_0_r in N.
    assert (Lx : exists zs z, y :: xs = zs ++ [z]) by (destruct (@exists_last _ (y :: xs)) as [zs [z Z]]; [discriminate|eauto]).
    destruct Lx as [zs [z Z]]. assert (Zl : length zs = length xs) by (apply (f_equal (@length _)) in Z; rewrite app_length in Z; cbn in Z; lia).
    destruct (C129_attack_ends set zs) as [k [K [Kv [Ks _]]]]; try (rewrite Es; cbn [f_state f_value f_target f_attack]); auto.
    + apply g_value, G.
    + rewrite Zl. exact N.
    + intros ->. cbn in Zl. rewrite <- Zl in N. cbn in N. lra.
    + rewrite <- Es. exists (S k). split; [cbn [length]; lia|]. intros ys.
      assert (Fk : exists q, firstn (S k) (y :: xs) = firstn k zs ++ [q]).
      { destruct (firstn_snoc (y :: xs) k) as [q Q]; [cbn [length]; lia|]. exists q. rewrite Q. f_equal. rewrite Z, firstn_app.
        replace (k - length zs)%nat with 0%nat by lia. apply app_nil_r. }
      destruct Fk as [q Fq]. rewrite Fq, <- app_assoc, after_app. set (e := after set (firstn k zs)) in *.
      destruct (after_keeps (firstn k zs) set) as [Kd Ku]. fold e in Kd, Ku. rewrite Es in Kv, Kd, Ku. cbn [f_target f_decay f_sustain] in Kv, Kd, Ku.
      unfold after, plays. cbn [app map env_history env_step fst].
      assert (Q : f_state _ _ (f_advance prec emax e) = FSustain /\ f_value _ _ (f_advance prec emax e) = target).
      { unfold f_advance. rewrite Ks, Kv, Ku, Kd.
        replace (flt prec emax target target) with false; [|symmetry; apply (ltb_false prec emax); auto; lra].
        destruct (raise target (f_decay _ _ before) Ut (g_decay _ G)) as [RN RL].
        replace (Bleb target (fadd prec emax target (f_decay _ _ before))) with true; [split; reflexivity|].
        symmetry. apply (leb_true prec emax). rewrite Tl. auto. }
      destruct Q as [Q1 Q2]. fold (plays ys). change (fst (run (f_advance prec emax e) (plays ys))) with (after (f_advance prec emax e) ys).
      rewrite hold by (left; exact Q1). exact Q2.
  - assert (LB : flt prec emax (f_value _ _ before) target = false) by (apply (ltb_false prec emax); auto; rewrite Vl, Tl; lra).
    assert (LB2 : flt prec emax target (f_value _ _ before) = true) by (apply (lt_iff prec emax); rewrite Vl, Tl; auto).
    rewrite LB, LB2 in Es. rewrite (level_fin prec emax _ Fd) in De.
    destruct (C129_decay_ends set xs v) as [k [K [Kv Ks]]]; try (rewrite Es; cbn [f_state f_value f_sustain f_decay]); auto.
    + apply g_value, G.
    + apply Rle_refl.
    + lra.
    + fold v. rewrite Rabs_right by lra. exact N.
    + intros ->. cbn in N. lra.
    + rewrite <- Es. exists k. split; [exact K|]. intros ys. rewrite after_app, hold by (left; exact Ks). rewrite Kv, Es. reflexivity.
Qed.
(** A change of the sample rate keeps the envelope where it is, and each of its rates per second, up
    to the rounding of a product and a quotient. *)
Lemma rescaled (s r x : fl) : finite s -> 1 <= val s -> finite r -> 0 <= val r -> finite x -> 1 <= val x ->
  val s * val r * (1 + u) + smallest prec emax < bpow radix2 emax ->
  let r' := fdiv prec emax (fmul prec emax s r) x in
  finite r' /\ Rabs (val r' * val x - val s * val r) <= (2 * u + u * u) * (val s * val r) + smallest prec emax * (1 + val x).
Proof.
  intros Fs Hs Fr Hr Fx Hx O r'. pose proof (roundoff_pos prec) as U.
  assert (Tp : 0 < smallest prec emax) by (rewrite (smallest_tiny prec emax); apply bpow_gt_0).
  assert (U1 : u <= 1).
  { unfold roundoff. apply Rle_trans with (/ 1); [|lra]. apply Rinv_le_contravar; [lra|]. apply IZR_le. apply (Z.pow_le_mono_r 2 0 prec); [lia|]. apply Z.lt_le_incl, Hprec. }
  set (p := val s * val r) in *. assert (Hp : 0 <= p) by (apply Rmult_le_pos; lra).
  pose proof (rnd_err prec emax p) as D. rewrite <- (roundoff_u prec), <- (smallest_tiny prec emax) in D. rewrite (Rabs_right p) in D by lra. apply Rabs_le_inv in D.
  assert (W : 0 <= rnd p) by (apply (rnd_pos prec emax), Hp).
  destruct (mul_cases prec emax s r Fs Fr) as [[_ [Vw Fw]]|[Q _]]; [|exfalso; fold p in Q; rewrite Rabs_right in Q by lra; nra].
  fold p in Vw. set (w := fmul prec emax s r) in *.
  assert (I : 0 < / val x <= 1) by (split; [apply Rinv_0_lt_compat; lra|rewrite <- Rinv_1; apply Rinv_le_contravar; lra]).
  assert (B : 0 <= val w / val x <= val w) by (rewrite Vw; unfold Rdiv; split; [apply Rmult_le_pos; lra|nra]).
  pose proof (fmt_val prec emax w) as Gw.
  assert (B2 : 0 <= rnd (val w / val x) <= val w).
  { split; [apply (rnd_pos prec emax), B|]. rewrite <- (rnd_id prec emax (val w)) at 2 by exact Gw. apply (rnd_le prec emax), B. }
  destruct (div_cases prec emax w x Fw ltac:(apply Rgt_not_eq; lra)) as [[_ [Vq [Fq _]]]|[Q _]];
    [|exfalso; pose proof (val_bound prec emax w) as M; rewrite Rabs_right in M by (rewrite Vw; lra); rewrite Rabs_right in Q by lra; lra].
  fold r' in Vq, Fq. split; [exact Fq|]. rewrite Vq.
  pose proof (rnd_err prec emax (val w / val x)) as E. rewrite <- (roundoff_u prec), <- (smallest_tiny prec emax) in E. rewrite (Rabs_right (val w / val x)) in E by lra.
  set (y := rnd (val w / val x)) in *. apply Rabs_le_inv in E.
  assert (X : Rabs (y * val x - val w) <= u * val w + smallest prec emax / 2 * val x).
  { replace (y * val x - val w) with ((y - val w / val x) * val x) by (field; apply Rgt_not_eq; lra). rewrite Rabs_mult, (Rabs_right (val x)) by lra.
    replace (u * val w + smallest prec emax / 2 * val x) with ((u * (val w / val x) + smallest prec emax / 2) * val x) by (field; apply Rgt_not_eq; lra).
    apply Rmult_le_compat_r; [lra|]. apply Rabs_le. lra. }
  apply Rabs_le_inv in X. rewrite Vw in X. set (W0 := rnd p) in *. clearbody W0 y p.
  assert (M : u * W0 <= u * (p + u * p + smallest prec emax / 2)) by (apply Rmult_le_compat_l; lra).
  assert (M2 : u * smallest prec emax <= smallest prec emax) by nra. apply Rabs_le. nra.
Qed.
Definition the_rates : list (fadsr prec emax -> fl) := [f_attack prec emax; f_decay prec emax; f_release prec emax].
Theorem C129_sample_rate h x : Forall allowed h -> finite x -> 1 <= val x ->
  let e := fst (run (f_new prec emax) h) in
  let e' := fst (run (f_new prec emax) (h ++ [SetSampleRate _ _ x])) in
  let sr := val (last_rate (of_Z prec emax 44100) h) in
  f_state _ _ e' = f_state _ _ e /\ f_value _ _ e' = f_value _ _ e /\ f_target _ _ e' = f_target _ _ e /\
  f_sustain _ _ e' = f_sustain _ _ e /\ f_rtime _ _ e' = f_rtime _ _ e /\ f_rate _ _ e' = x /\
  forall rate, In rate the_rates -> finite (rate e) -> sr * val (rate e) * (1 + u) + smallest prec emax < bpow radix2 emax ->
    finite (rate e') /\
    Rabs (val (rate e') * val x - sr * val (rate e)) <= (2 * u + u * u) * (sr * val (rate e)) + smallest prec emax * (1 + val x).
Proof.
  intros A Fx Hx e e' sr.
  assert (G : good e) by (apply good_run; [apply good_new|exact A]).
  assert (SR : f_rate _ _ e = last_rate (of_Z prec emax 44100) h) by (unfold e; rewrite rate_history; reflexivity).
  destruct (g_rate _ G) as [Fs Hs].
  assert (E : e' = fst (env_step prec emax e (SetSampleRate prec emax x))) by (unfold e'; rewrite run_app; reflexivity).
  rewrite E. cbn [env_step fst f_state f_value f_target f_sustain f_rtime f_rate]. do 6 (split; [reflexivity|]).
  intros rate I Fr O. unfold sr in *. rewrite <- SR in *.
  pose proof (proj1 (zero_le _) (g_attack _ G)) as [_ Ha]. pose proof (proj1 (zero_le _) (g_decay _ G)) as [_ Hd].
  pose proof (proj1 (zero_le _) (g_release _ G)) as [_ Hr].
  destruct I as [<-|[<-|[<-|[]]]]; cbn [f_attack f_decay f_release]; apply rescaled; auto.
  - rewrite (level_fin prec emax _ Fr) in Ha. exact Ha.
  - rewrite (level_fin prec emax _ Fr) in Hd. exact Hd.
  - rewrite (level_fin prec emax _ Fr) in Hr. exact Hr.
Qed.

(** The attack and the decay time: the rate is what crosses full scale, or what is above the sustain
    level, in that many seconds. *)
Lemma over_time (a t s : fl) : (3 <= prec)%Z -> unit_level a -> finite t -> finite s ->
  1 <= val t * val s -> val t * val s * (1 + u) + smallest prec emax < bpow radix2 emax ->
  let r := fdiv prec emax a (fmul prec emax t s) in
  finite r /\ Rabs (val r * (val t * val s) - val a) <= 5 * u * val a + 2 * smallest prec emax * (val t * val s).
Proof.
  intros P3 [Fa Ha] Ft Fs H1 O r. pose proof (roundoff_pos prec) as U.
  assert (Tp : 0 < smallest prec emax) by (rewrite (smallest_tiny prec emax); apply bpow_gt_0).
  assert (U8 : u <= / 8).
  { unfold roundoff. apply Rinv_le_contravar; [lra|]. apply IZR_le. apply (Z.pow_le_mono_r 2 3 prec); lia. }
  assert (Ts : smallest prec emax <= u).
  { rewrite (smallest_tiny prec emax), (roundoff_u prec). unfold tiny, unit_roundoff. pose proof Hprec as P. unfold Prec_gt_0 in P. apply bpow_le. lia. }
  set (p := val t * val s) in *.
  pose proof (rnd_err prec emax p) as D. rewrite <- (roundoff_u prec), <- (smallest_tiny prec emax) in D. rewrite (Rabs_right p) in D by lra. apply Rabs_le_inv in D.
  assert (P1 : 1 <= rnd p) by (rewrite <- (rnd_id prec emax 1) by apply (fmt_1 prec emax); apply (rnd_le prec emax); exact H1).
  destruct (mul_cases prec emax t s Ft Fs) as [[_ [Vp Fp]]|[Q _]]; [|exfalso; fold p in Q; rewrite Rabs_right in Q by lra; nra].
  fold p in Vp. set (w := fmul prec emax t s) in *. set (P := rnd p) in *.
  assert (I : 0 < / P <= 1) by (split; [apply Rinv_0_lt_compat; lra|rewrite <- Rinv_1; apply Rinv_le_contravar; lra]).
  assert (Q : 0 <= val a / P <= 1) by (unfold Rdiv; split; nra).
  assert (Q2 : 0 <= rnd (val a / P) <= 1).
  { split; [apply (rnd_pos prec emax); lra|]. apply Rle_trans with (rnd 1); [apply (rnd_le prec emax); lra|]. rewrite (rnd_id prec emax 1) by apply (fmt_1 prec emax). lra. }
  pose proof emax_big as Eb.
  destruct (div_cases prec emax a w Fa ltac:(rewrite Vp; apply Rgt_not_eq; lra)) as [[_ [Vq [Fq _]]]|[O2 _]]; [|exfalso; rewrite Vp in O2; rewrite Rabs_right in O2 by lra; lra].
  rewrite Vp in Vq. fold r in Vq, Fq. split; [exact Fq|]. rewrite Vq.
  pose proof (rnd_err prec emax (val a / P)) as E. rewrite <- (roundoff_u prec), <- (smallest_tiny prec emax) in E. rewrite (Rabs_right (val a / P)) in E by lra. apply Rabs_le_inv in E.
  set (y := rnd (val a / P)) in *. clearbody y P p.
  assert (X : Rabs (y * P - val a) <= u * val a + smallest prec emax / 2 * P).
  { replace (y * P - val a) with ((y - val a / P) * P) by (field; apply Rgt_not_eq; lra). rewrite Rabs_mult, (Rabs_right P) by lra.
    replace (u * val a + smallest prec emax / 2 * P) with ((u * (val a / P) + smallest prec emax / 2) * P) by (field; apply Rgt_not_eq; lra).
    apply Rmult_le_compat_r; [lra|]. apply Rabs_le. lra. }
  apply Rabs_le_inv in X.
  set (eta := smallest prec emax) in *. clearbody eta.
  assert (Up : u <= u * p) by nra.
  assert (D2 : - (3 / 2 * u * p) <= P - p <= 3 / 2 * u * p) by lra.
  assert (U8p : u * p <= / 8 * p) by (apply Rmult_le_compat_r; lra).
  assert (PP : p <= 4 / 3 * P) by lra. assert (PQ : P <= 5 / 4 * p) by lra.
  assert (K0 : u * p <= u * (4 / 3 * P)) by (apply Rmult_le_compat_l; lra).
  assert (K : Rabs (p - P) <= 2 * u * P) by (apply Rabs_le; lra).
  assert (Z : Rabs (y * p - y * P) <= 2 * u * (y * P)).
  { replace (y * p - y * P) with (y * (p - P)) by ring. rewrite Rabs_mult, (Rabs_right y) by lra.
    replace (2 * u * (y * P)) with (y * (2 * u * P)) by ring. apply Rmult_le_compat_l; lra. }
  apply Rabs_le_inv in Z.
  assert (ua : u * val a <= / 8 * val a) by (apply Rmult_le_compat_r; lra).
  set (yP := y * P) in *. set (yp := y * p) in *. set (eP := eta / 2 * P) in *.
  assert (He : 0 <= eP) by (apply Rmult_le_pos; lra).
  assert (Hy : 0 <= yP) by (apply Rmult_le_pos; lra).
  assert (YP : yP <= 9 / 8 * val a + eP) by lra.
  assert (Z2 : u * yP <= u * (9 / 8 * val a + eP)) by (apply Rmult_le_compat_l; lra).
  assert (Z3 : u * eP <= / 8 * eP) by (apply Rmult_le_compat_r; lra).
  assert (EP : eP <= eta / 2 * (5 / 4 * p)) by (apply Rmult_le_compat_l; lra).
  clearbody yP yp eP. apply Rabs_le. lra.
Qed.
Theorem C129_attack_time h t : (3 <= prec)%Z -> Forall allowed h -> finite t -> 0 < val t ->
  let sr := val (last_rate (of_Z prec emax 44100) h) in
  let e := fst (run (f_new prec emax) h) in
  let e' := fst (run (f_new prec emax) (h ++ [SetAttackTime _ _ t])) in
  let p := val t * sr in
  1 <= p -> p * (1 + u) + smallest prec emax < bpow radix2 emax ->
  finite (f_attack _ _ e') /\ Rabs (val (f_attack _ _ e') * p - 1) <= 5 * u + 2 * smallest prec emax * p /\
  f_decay _ _ e' = f_decay _ _ e /\ f_release _ _ e' = f_release _ _ e /\ f_value _ _ e' = f_value _ _ e /\
  f_state _ _ e' = f_state _ _ e /\ f_target _ _ e' = f_target _ _ e /\ f_sustain _ _ e' = f_sustain _ _ e.
Proof.
  intros P3 A Ft Ht sr e e' p H1 O.
  assert (G : good e) by (apply good_run; [apply good_new|exact A]).
  assert (SR : f_rate _ _ e = last_rate (of_Z prec emax 44100) h) by (unfold e; rewrite rate_history; reflexivity).
  destruct (g_rate _ G) as [Fs Hs].
  assert (E : e' = fst (env_step prec emax e (SetAttackTime prec emax t))) by (unfold e'; rewrite run_app; reflexivity).
  unfold p, sr in *. rewrite <- SR in *.
  destruct (over_time (of_Z prec emax 1) t (f_rate _ _ e) P3 unit_one Ft Fs H1 O) as [F B].
  rewrite E. cbn [env_step fst f_attack f_decay f_release f_value f_state f_target f_sustain].
  split; [exact F|]. split; [|repeat split; reflexivity]. destruct of_one as [_ V1]. rewrite V1 in B. rewrite Rmult_1_r in B. exact B.
Qed.
Theorem C129_decay_time h t : (3 <= prec)%Z -> Forall allowed h -> finite t -> 0 < val t ->
  let sr := val (last_rate (of_Z prec emax 44100) h) in
  let e := fst (run (f_new prec emax) h) in
  let e' := fst (run (f_new prec emax) (h ++ [SetDecayTime _ _ t])) in
  let p := val t * sr in
  let fall := 1 - val (f_sustain _ _ e) in
  1 <= p -> p * (1 + u) + smallest prec emax < bpow radix2 emax ->
  finite (f_decay _ _ e') /\ Rabs (val (f_decay _ _ e') * p - fall) <= 7 * u * fall + 3 * smallest prec emax * p /\
  f_attack _ _ e' = f_attack _ _ e /\ f_release _ _ e' = f_release _ _ e /\ f_value _ _ e' = f_value _ _ e /\
  f_state _ _ e' = f_state _ _ e /\ f_target _ _ e' = f_target _ _ e /\ f_sustain _ _ e' = f_sustain _ _ e.
Proof.
  intros P3 A Ft Ht sr e e' p fall H1 O.
  assert (G : good e) by (apply good_run; [apply good_new|exact A]).
  assert (SR : f_rate _ _ e = last_rate (of_Z prec emax 44100) h) by (unfold e; rewrite rate_history; reflexivity).
  destruct (g_rate _ G) as [Fs Hs].
  assert (E : e' = fst (env_step prec emax e (SetDecayTime prec emax t))) by (unfold e'; rewrite run_app; reflexivity).
  unfold p, sr in *. rewrite <- SR in *. destruct (g_sustain _ G) as [Fu Hu]. destruct of_one as [F1 V1].
  destruct (sub_no_overflow (of_Z prec emax 1) (f_sustain _ _ e) F1 Fu) as [Fa Va]; [lra|lra|]. rewrite V1 in Va. fold fall in Va.
  set (a := fsub prec emax (of_Z prec emax 1) (f_sustain _ _ e)) in *.
  assert (Hf : 0 <= fall <= 1) by (unfold fall; lra).
  assert (Ua : unit_level a).
  { split; [exact Fa|]. rewrite Va. split; [apply (rnd_pos prec emax), Hf|]. apply Rle_trans with (rnd 1); [apply (rnd_le prec emax); lra|].
    rewrite (rnd_id prec emax 1) by apply (fmt_1 prec emax). lra. }
  destruct (over_time a t (f_rate _ _ e) P3 Ua Ft Fs H1 O) as [F B].
  rewrite E. cbn [env_step fst f_attack f_decay f_release f_value f_state f_target f_sustain]. fold a.
  split; [exact F|]. split; [|repeat split; reflexivity].
  pose proof (rnd_err prec emax fall) as D. rewrite <- (roundoff_u prec), <- (smallest_tiny prec emax) in D. rewrite (Rabs_right fall) in D by lra. apply Rabs_le_inv in D.
  rewrite <- Va in D. apply Rabs_le_inv in B. pose proof (roundoff_pos prec) as U.
  assert (Tp : 0 < smallest prec emax) by (rewrite (smallest_tiny prec emax); apply bpow_gt_0).
  assert (U8 : u <= / 8).
  { unfold roundoff. apply Rinv_le_contravar; [lra|]. apply IZR_le. apply (Z.pow_le_mono_r 2 3 prec); lia. }
  set (q := val t * val (f_rate _ _ e)) in *. set (z := val (fdiv prec emax a (fmul prec emax t (f_rate _ _ e))) * q) in *.
  set (eta := smallest prec emax) in *. set (b := val a) in *. clearbody eta b z q fall.
  assert (M : u * b <= u * fall * (9 / 8) + eta / 16) by nra. apply Rabs_le. nra.
Qed.
End Format.


(** A rate that is too small for the level never gets anywhere: a float envelope at 0.5 whose attack
    rate is set to 2^-26 (an attack of 25 minutes at 44100 Hz) stays in the attack for ever. *)
Definition slow_history : list (env_op 24 128) :=
  [SetAttackRate 24 128 (fratio 24 128 1 4); KeyOn 24 128; Play 24 128 (sgl 1); Play 24 128 (sgl 1); SetAttackRate 24 128 (fratio 24 128 1 67108864)].
Definition slow : fadsr 24 128 := fst (env_history 24 128 (f_new 24 128) slow_history).
Lemma slow_still : f_advance 24 128 slow = slow.
Proof.
  unfold f_advance. change (f_state 24 128 slow) with FAttack. cbv iota.
  assert (E : fadd 24 128 (f_value 24 128 slow) (f_attack 24 128 slow) = f_value 24 128 slow) by (apply B2SF_inj; vm_compute; reflexivity).
  rewrite E. replace (Bleb (f_target 24 128 slow) (f_value 24 128 slow)) with false by (vm_compute; reflexivity). reflexivity.
Qed.
Lemma slow_allowed : Forall (allowed 24 128) slow_history.
Proof. repeat constructor; vm_compute; reflexivity. Qed.
Theorem C129_attack_ends_refuted : ~ (forall h, Forall (allowed 24 128) h ->
  let e := fst (env_history 24 128 (f_new 24 128) h) in
  f_state _ _ e = FAttack -> lt (sgl 0) (f_attack _ _ e) ->
  exists xs, f_state _ _ (after 24 128 e xs) <> FAttack).
Proof.
  intros H. destruct (H slow_history slow_allowed) as [xs X]; [reflexivity|vm_compute; reflexivity|].
  apply X. fold slow. clear. induction xs as [|x xs IH]; [reflexivity|].
  unfold after, plays in *. cbn [map env_history env_step fst]. rewrite slow_still. exact IH.
Qed.

Example C129_example : Forall (allowed 24 128) slow_history /\
  map B2SF (snd (env_history 24 128 (f_new 24 128) slow_history)) = map B2SF [fratio 24 128 1 4; fratio 24 128 1 2].
Proof. split; [exact slow_allowed|]. vm_compute. reflexivity. Qed.
(** The attack of a new float envelope takes at most 1001 samples, and a release from one half
    too. *)
Definition started : fadsr 24 128 := fst (env_history 24 128 (f_new 24 128) [KeyOn 24 128]).
Example C129_example2 xs : length xs = 1001%nat ->
  exists k, (k <= 1001)%nat /\ f_state _ _ (after 24 128 started (firstn k xs)) = FDecay.
Proof.
  intros L. destruct (sf_val (sgl 1) 8388608 (-23)) as [F1 V1']; [vm_compute; reflexivity|].
  assert (V1 : B2R (sgl 1) = 1) by (rewrite V1'; cbn; lra).
  destruct (sf_val (fratio 24 128 1 1000) 8589935 (-33)) as [Fr Vr']; [vm_compute; reflexivity|].
  assert (Vr : B2R (fratio 24 128 1 1000) = 8589935 / 8589934592) by (rewrite Vr'; cbn; lra).
  assert (T : f_target _ _ started = sgl 1) by reflexivity. assert (A : f_attack _ _ started = fratio 24 128 1 1000) by reflexivity.
  destruct (C129_attack_ends 24 128 started xs) as [k [K [_ [S _]]]].
  - reflexivity.
  - split; [reflexivity|cbn; lra].
  - rewrite T. split; [exact F1|]. rewrite V1. lra.
  - rewrite A. exact Fr.
  - rewrite A, Vr. lra.
  - rewrite T, A, V1, Vr, L. change (B2R (f_value 24 128 started)) with 0. rewrite INR_IZR_INZ. change (Z.of_nat 1001) with 1001%Z. unfold roundoff. change (2 ^ 24)%Z with 16777216%Z. lra.
  - intros ->. discriminate.
  - exists k. rewrite L in K. auto.
Qed.
Example C129_example3 xs : length xs = 1001%nat -> forall e, e = mkAdsr 24 128 FRelease (sgl 44100) (sgl 0) (fratio 24 128 1 2) (sgl 0) (fratio 24 128 1 1000) (fratio 24 128 1 1000) (sgl 1) (sgl 0) ->
  exists k, (k <= 1001)%nat /\ f_state _ _ (after 24 128 e (firstn k xs)) = FIdle.
Proof.
  intros L e ->. destruct (sf_val (fratio 24 128 1 2) 8388608 (-24)) as [F1 V1']; [vm_compute; reflexivity|].
  assert (V1 : B2R (fratio 24 128 1 2) = / 2) by (rewrite V1'; cbn; lra).
  destruct (sf_val (fratio 24 128 1 1000) 8589935 (-33)) as [Fr Vr']; [vm_compute; reflexivity|].
  assert (Vr : B2R (fratio 24 128 1 1000) = 8589935 / 8589934592) by (rewrite Vr'; cbn; lra).
  edestruct (C129_release_ends 24 128) with (v0 := 1 / 2) (xs := xs) as [k [K [_ S]]]; [| | | | | | |exists k; rewrite L in K; split; [exact K|exact S]]; cbn [f_state f_value f_release].
  - reflexivity.
  - split; [exact F1|]. rewrite V1. lra.
  - rewrite V1. lra.
  - exact Fr.
  - rewrite Vr. lra.
  - rewrite V1, Vr, L. rewrite INR_IZR_INZ. change (Z.of_nat 1001) with 1001%Z. unfold roundoff. change (2 ^ 24)%Z with 16777216%Z. lra.
  - intros ->. discriminate.
Qed.
(** A release of one second from one half is over after 44217 samples, and setting the target to one
    instead settles there within four. *)
Definition half_history : list (env_op 24 128) := [SetAttackRate 24 128 (fratio 24 128 1 4); KeyOn 24 128; Play 24 128 (sgl 1); Play 24 128 (sgl 1)].
Lemma half_allowed : Forall (allowed 24 128) half_history.
Proof. repeat constructor; vm_compute; reflexivity. Qed.
Lemma sgl_one : finite (sgl 1) /\ B2R (sgl 1) = 1.
Proof. destruct (sf_val (sgl 1) 8388608 (-23)) as [F V]; [vm_compute; reflexivity|]. split; [exact F|]. rewrite V. cbn. lra. Qed.
Example C129_example4 xs : length xs = 44217%nat ->
  exists k, (k <= 44217)%nat /\ forall ys,
    f_state _ _ (after 24 128 (fst (env_history 24 128 (f_new 24 128) (SetReleaseTime 24 128 (sgl 1) :: half_history ++ [KeyOff 24 128]))) (firstn k xs ++ ys)) = FIdle.
Proof.
  intros L. destruct sgl_one as [F1 V1].
  destruct (sf_val (of_Z 24 128 44100) 11289600 (-8)) as [_ Vs']; [vm_compute; reflexivity|].
  assert (Vs : B2R (of_Z 24 128 44100) = 44100) by (rewrite Vs'; cbn; lra). clear Vs'.
  destruct (sf_val (f_value 24 128 (fst (env_history 24 128 (f_new 24 128) (SetReleaseTime 24 128 (sgl 1) :: half_history)))) 8388608 (-24)) as [_ Vh']; [vm_compute; reflexivity|].
  assert (Vh : B2R (f_value 24 128 (fst (env_history 24 128 (f_new 24 128) (SetReleaseTime 24 128 (sgl 1) :: half_history)))) = / 2) by (rewrite Vh'; cbn; lra). clear Vh'.
  assert (Sm : 0 < smallest 24 128 <= / 1000000000000000).
  { unfold smallest. split; [apply Rinv_0_lt_compat; apply IZR_lt; reflexivity|]. apply Rinv_le_contravar; [lra|]. apply IZR_le. vm_compute. discriminate. }
  assert (Ur : roundoff 24 = / 16777216) by reflexivity.
  edestruct (C129_release_time 24 128 ltac:(lia) [] (sgl 1) half_history xs) as [k [K H]].
  - constructor.
  - exact F1.
  - rewrite V1. lra.
  - exact half_allowed.
  - repeat constructor.
  - cbn [last_rate]. rewrite V1, Vs. lra.
  - cbn [last_rate]. rewrite V1, Vs, Ur. apply Rlt_le_trans with (bpow radix2 17); [cbn; lra|apply bpow_le; lia].
  - cbn [last_rate app]. rewrite V1, Vs, Ur, Vh. nra.
  - cbn [last_rate]. rewrite V1, Vs, Ur, L, INR_IZR_INZ. change (Z.of_nat 44217) with 44217%Z. nra.
  - exists k. rewrite L in K. split; [exact K|]. intros ys. apply H.
Qed.
Example C129_example5 xs : length xs = 4%nat ->
  exists k, (k <= 4)%nat /\ forall ys,
    f_value _ _ (after 24 128 (fst (env_history 24 128 (f_new 24 128) (half_history ++ [SetTarget 24 128 (sgl 1)]))) (firstn k xs ++ ys)) = sgl 1.
Proof.
  intros L. destruct sgl_one as [F1 V1].
  destruct (sf_val (f_value 24 128 (fst (env_history 24 128 (f_new 24 128) half_history))) 8388608 (-24)) as [_ Vh']; [vm_compute; reflexivity|].
  assert (Vh : B2R (f_value 24 128 (fst (env_history 24 128 (f_new 24 128) half_history))) = / 2) by (rewrite Vh'; cbn; lra). clear Vh'.
  destruct (sf_val (f_attack 24 128 (fst (env_history 24 128 (f_new 24 128) half_history))) 8388608 (-25)) as [Fa Va']; [vm_compute; reflexivity|].
  assert (Va : B2R (f_attack 24 128 (fst (env_history 24 128 (f_new 24 128) half_history))) = / 4) by (rewrite Va'; cbn; lra). clear Va'.
  destruct (sf_val (fratio 24 128 1 1000000000) 9007199 (-53)) as [_ Vf']; [vm_compute; reflexivity|].
  assert (Vf : B2R (fratio 24 128 1 1000000000) < 1) by (rewrite Vf'; cbn; lra). clear Vf'.
  pose proof (C129_set_target 24 128 ltac:(lia) half_history (sgl 1) xs half_allowed) as T. cbv zeta in T.
  destruct (Rlt_dec (B2R (fratio 24 128 1 1000000000)) (B2R (sgl 1))) as [D|D]; [|rewrite V1 in D; lra].
  rewrite L in T. apply T; [split; [exact F1|rewrite V1; lra]|]. left. rewrite V1, Vh, Va. split; [lra|]. split; [exact Fa|].
  change (4 - 1)%nat with 3%nat. unfold roundoff. change (2 ^ 24)%Z with 16777216%Z. cbn. lra.
Qed.
(** Doubling the sample rate of an envelope at half scale, and times of a tenth of a second. *)
Example C129_example6 :
  let e := fst (env_history 24 128 (f_new 24 128) half_history) in
  Forall (allowed 24 128) half_history /\ B2R (f_value _ _ e) = / 2 /\
  Forall (fun rate => finite (rate e) /\ 44100 * B2R (rate e) * (1 + roundoff 24) + smallest 24 128 < bpow radix2 128) (the_rates 24 128) /\
  1 <= B2R (fratio 24 128 1 10) * 44100 /\
  B2R (fratio 24 128 1 10) * 44100 * (1 + roundoff 24) + smallest 24 128 < bpow radix2 128.
Proof.
  cbv zeta. split; [apply half_allowed|].
  assert (R0 : roundoff 24 = / 16777216) by reflexivity.
  assert (S1 : smallest 24 128 <= 1) by (rewrite (smallest_tiny 24 128); apply (bpow_le radix2 _ 0); lia).
  assert (B1 : bpow radix2 20 <= bpow radix2 128) by (apply bpow_le; lia). change (bpow radix2 20) with 1048576 in B1.
  destruct (sf_val (f_attack 24 128 (fst (env_history 24 128 (f_new 24 128) half_history))) 8388608 (-25)) as [Fa Va']; [vm_compute; reflexivity|].
  destruct (sf_val (f_decay 24 128 (fst (env_history 24 128 (f_new 24 128) half_history))) 8589935 (-33)) as [Fd Vd']; [vm_compute; reflexivity|].
  destruct (sf_val (f_release 24 128 (fst (env_history 24 128 (f_new 24 128) half_history))) 8589935 (-33)) as [Fr Vr']; [vm_compute; reflexivity|].
  destruct (sf_val (fratio 24 128 1 10) 13421773 (-27)) as [_ Vt]; [vm_compute; reflexivity|].
  destruct (sf_val (f_value 24 128 (fst (env_history 24 128 (f_new 24 128) half_history))) 8388608 (-24)) as [_ Vh]; [vm_compute; reflexivity|].
  split; [rewrite Vh; cbn; lra|].
  split; [|rewrite Vt, R0; cbn; lra].
  repeat (apply Forall_cons); [| | |apply Forall_nil]; (split; [assumption|]); rewrite ?Va', ?Vd', ?Vr', R0; cbn; lra.
Qed.
Print Assumptions C129_range.
Print Assumptions C129_attack_ends.
Print Assumptions C129_release_ends.
Print Assumptions C129_decay_ends.
Print Assumptions C129_release_time.
Print Assumptions C129_release_rate.
Print Assumptions C129_set_target.
Print Assumptions C129_sample_rate.
Print Assumptions C129_attack_time.
Print Assumptions C129_decay_time.
Print Assumptions C129_attack_ends_refuted.
