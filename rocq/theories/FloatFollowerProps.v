(** C147: the attack/release envelope follower in floating point. *)
From Coq Require Import ZArith Reals List Bool Lia Lra Psatz.
From Flocq Require Import Core BinarySingleNaN.
From Verif Require Import Base FloatModel FloatSpec FloatProofs FloatProps FloatOrderProps FloatEnvProps FloatFollowerModel.
Import ListNotations.
Local Open Scope R_scope.

Section Format.
Context (prec emax : Z) {Hprec : Prec_gt_0 prec} {Hmax : Prec_lt_emax prec emax}.
Notation fl := (binary_float prec emax).
Notation rnd := (round radix2 (FLT_exp (3 - emax - prec) prec) ZnearestE).
Notation val := (@B2R prec emax).
Notation zero := (fzero prec emax).
Notation new := (far_new prec emax).
Notation run := (far_run prec emax).

(** The samples of a history are finite. *)
Definition clean (h : list (far_op prec emax)) : Prop := forall x, In (FarSample _ _ x) h -> finite x.
(** The output is the sample, or its magnitude when rectified, and zero in place of a number below
    the normal range. *)
Definition passes (p : bool * fl * fl) : Prop :=
  let '(r, x, y) := p in
  let v := if r then Rabs (val x) else val x in
  finite y /\ val y = if Rlt_dec (Rabs v) (bpow radix2 (2 - emax)) then 0 else v.

(** The samples of a history, each with the rectification in force. *)
Fixpoint asked (r : bool) (h : list (far_op prec emax)) : list (bool * fl) :=
  match h with
  | [] => []
  | FarRect _ _ b :: t => asked b t
  | FarSample _ _ x :: t => (r, x) :: asked r t
  | _ :: t => asked r t
  end.

Lemma denormal_small (x : fl) : finite x ->
  val (if f_denormal prec emax x then zero else x) = if Rlt_dec (Rabs (val x)) (bpow radix2 (2 - emax)) then 0 else val x.
Proof.
  intros F. pose proof Hprec as P. pose proof Hmax as M. unfold Prec_gt_0, Prec_lt_emax in P, M.
  destruct x as [s|s| |s m e Hb]; try discriminate F.
  - cbn [f_denormal]. destruct (Rlt_dec _ _); reflexivity.
  - cbn [f_denormal]. pose proof Hb as Hc. unfold SpecFloat.bounded in Hc. apply andb_prop in Hc. destruct Hc as [Hc _].
    unfold SpecFloat.canonical_mantissa in Hc. apply Zeq_bool_eq in Hc. unfold SpecFloat.fexp, SpecFloat.emin in Hc.
    assert (A : Rabs (val (B754_finite s m e Hb)) = IZR (Z.pos m) * bpow radix2 e).
    { cbn [B2R]. rewrite <- F2R_Zabs, abs_cond_Zopp. reflexivity. }
    rewrite A.
    destruct (Z.ltb_spec (Z.pos m) (2 ^ (prec - 1))) as [L|L].
    + assert (D : (Z.pos (SpecFloat.digits2_pos m) <= prec - 1)%Z).
      { rewrite Zpos_digits2_pos. apply Zdigits_le_Zpower. rewrite Z.abs_eq by lia. exact L. }
      assert (E : e = (3 - emax - prec)%Z) by lia.
      destruct (Rlt_dec _ _) as [_|N]; [reflexivity|]. exfalso. apply N.
      replace (2 - emax)%Z with ((prec - 1) + e)%Z by lia. rewrite bpow_plus. apply Rmult_lt_compat_r; [apply bpow_gt_0|].
      rewrite <- IZR_Zpower by lia. apply IZR_lt. exact L.
    + destruct (Rlt_dec _ _) as [Y|_]; [exfalso|reflexivity].
      apply (Rlt_irrefl (IZR (Z.pos m) * bpow radix2 e)). eapply Rlt_le_trans; [exact Y|].
      apply Rle_trans with (bpow radix2 (prec - 1) * bpow radix2 e).
      * rewrite <- bpow_plus. apply bpow_le. lia.
      * apply Rmult_le_compat_r; [apply bpow_ge_0|]. rewrite <- IZR_Zpower by lia. apply IZR_le. exact L.
Qed.
Lemma denormal_fin (x : fl) : finite x -> finite (if f_denormal prec emax x then zero else x).
Proof. destruct (f_denormal prec emax x); [reflexivity|auto]. Qed.

(** With a gain of zero the mixture is the sample. *)
Lemma mix_zero (r l : fl) : finite r -> finite l ->
  let c := fadd prec emax (fmul prec emax (fsub prec emax (of_Z prec emax 1) zero) r) (fmul prec emax zero l) in
  finite c /\ val c = val r.
Proof.
  intros Fr Fl c. destruct (of_one prec emax) as [F1 V1]. pose proof (emax_big prec emax) as E.
  destruct (sub_cases prec emax _ _ F1 (eq_refl : is_finite zero = true)) as [[_ [V2 F2]]|[O _]].
  2: { exfalso. rewrite V1, val_zero, Rminus_0_r, (rnd_id prec emax) in O by apply (fmt_1 prec emax). rewrite Rabs_R1 in O. lra. }
  rewrite V1, val_zero, Rminus_0_r, (rnd_id prec emax) in V2 by apply (fmt_1 prec emax).
  destruct (mul_cases prec emax _ _ F2 Fr) as [[_ [V3 F3]]|[O _]]; rewrite V2, Rmult_1_l, (rnd_id prec emax) in * by apply (fmt_val prec emax).
  2: { exfalso. pose proof (val_bound prec emax r). lra. }
  destruct (mul_cases prec emax zero l eq_refl Fl) as [[_ [V4 F4]]|[O _]]; rewrite val_zero, Rmult_0_l, (rnd_0 prec emax) in *.
  2: { exfalso. rewrite Rabs_R0 in O. lra. }
  unfold c. destruct (add_cases prec emax _ _ F3 F4) as [[_ [V5 F5]]|[O _]]; rewrite V3, V4, Rplus_0_r, (rnd_id prec emax) in * by apply (fmt_val prec emax).
  - split; assumption.
  - exfalso. pose proof (val_bound prec emax r). lra.
Qed.

(** The gains stay at zero whatever is called. *)
Definition flat (a : far prec emax) : Prop := fa_again _ _ a = zero /\ fa_rgain _ _ a = zero.
Lemma flat_new fexp sr at_ rt rc : flat (new fexp sr at_ rt rc). Proof. split; reflexivity. Qed.
Lemma flat_reset fexp a : flat a -> flat (far_reset prec emax fexp a) /\ fa_last _ _ (far_reset prec emax fexp a) = zero.
Proof. intros [A B]. unfold flat, far_reset. cbn. rewrite A, B. repeat split; reflexivity. Qed.
Lemma flat_run fexp h : forall a, flat a -> flat (fst (run fexp a h)).
Proof.
  induction h as [|o t IH]; intros a H; [exact H|].
  destruct o; cbn [far_run]; try (apply IH; apply flat_reset; exact H); try (apply IH; exact H).
Qed.
Lemma tick_passes a x : flat a -> finite (fa_last _ _ a) -> finite x ->
  passes (fa_rect _ _ a, x, snd (far_tick prec emax a x)) /\ finite (fa_last _ _ (fst (far_tick prec emax a x))) /\ flat (fst (far_tick prec emax a x)).
Proof.
  intros [A B] Fl Fx. unfold far_tick. rewrite A, B. cbn [fst snd fa_last].
  set (r := if fa_rect _ _ a then fabs prec emax x else x).
  assert (Fr : finite r) by (unfold r, finite, fabs; destruct (fa_rect _ _ a); [rewrite is_finite_Babs|]; exact Fx).
  assert (Vr : val r = if fa_rect _ _ a then Rabs (val x) else val x) by (unfold r, fabs; destruct (fa_rect _ _ a); [apply B2R_Babs|reflexivity]).
  destruct (mix_zero r (fa_last _ _ a) Fr Fl) as [Fc Vc].
  destruct (flt prec emax (fa_last _ _ a) r);
    (split; [split; [apply denormal_fin; exact Fc|rewrite denormal_small by exact Fc; rewrite Vc, Vr; reflexivity]|
             split; [apply denormal_fin; exact Fc|split; reflexivity]]).
Qed.
Lemma run_passes fexp h : forall a, flat a -> finite (fa_last _ _ a) -> clean h -> Forall passes (snd (run fexp a h)).
Proof.
  induction h as [|o t IH]; intros a A F C; [constructor|].
  assert (Ct : clean t) by (intros x Hx; apply C; right; exact Hx).
  destruct o; cbn [far_run]; try (apply IH; [apply flat_reset; exact A|reflexivity|exact Ct]).
  - apply IH; [exact A|exact F|exact Ct].
  - destruct (tick_passes a x A F (C x (or_introl eq_refl))) as [Hp [Hf Hl]]. cbn [snd]. constructor; [exact Hp|]. apply IH; assumption.
Qed.
Lemma run_app fexp h k : forall a, run fexp a (h ++ k) =
  (fst (run fexp (fst (run fexp a h)) k), snd (run fexp a h) ++ snd (run fexp (fst (run fexp a h)) k)).
Proof.
  induction h as [|o t IH]; intros a; [cbn; apply surjective_pairing|].
  destruct o; cbn [far_run app]; try apply IH. rewrite IH. reflexivity.
Qed.

Lemma run_asked fexp h : forall a, map fst (snd (run fexp a h)) = asked (fa_rect _ _ a) h.
Proof.
  induction h as [|o t IH]; intros a; [reflexivity|].
  destruct o; cbn [far_run asked]; try (rewrite IH; reflexivity). cbn [snd map fst]. rewrite IH. reflexivity.
Qed.

(** The follower follows nothing: for every history of settings and finite samples every output is the
    (rectified) sample itself, whatever the attack and release times; the same after a reset that ends
    any history, even one with infinities or NaN in it. *)
Theorem C147_follower_actual fexp sr at_ rt rc h0 h : clean h ->
  map fst (snd (run fexp (new fexp sr at_ rt rc) h)) = asked rc h /\
  Forall passes (snd (run fexp (new fexp sr at_ rt rc) h)) /\
  Forall passes (snd (run fexp (fst (run fexp (new fexp sr at_ rt rc) (h0 ++ [FarReset _ _]))) h)).
Proof.
  intros C. split; [apply run_asked|]. split; [apply run_passes; [apply flat_new|reflexivity|exact C]|].
  rewrite run_app. cbn [fst far_run].
  pose proof (flat_run fexp h0 _ (flat_new fexp sr at_ rt rc)) as A. destruct (flat_reset fexp _ A) as [A' L].
  apply run_passes; [exact A'|rewrite L; reflexivity|exact C].
Qed.

(** So the envelope does not hold a peak: whatever the attack and release times, it reaches a normal
    positive sample at once and falls to zero with the next silent one. *)
Theorem C147_smoothing_refuted fexp sr at_ rt rc x : finite x -> bpow radix2 (2 - emax) <= val x ->
  exists y z, snd (run fexp (new fexp sr at_ rt rc) [FarSample _ _ x; FarSample _ _ zero]) = [(rc, x, y); (rc, zero, z)] /\
    finite y /\ finite z /\ val y = val x /\ val z = 0.
Proof.
  intros F L. pose proof (bpow_gt_0 radix2 (2 - emax)) as Hp.
  destruct (C147_follower_actual fexp sr at_ rt rc [] [FarSample _ _ x; FarSample _ _ zero]) as [_ [H _]].
  { intros y [E|[E|[]]]; injection E as <-; [exact F|reflexivity]. }
  cbn [far_run snd fst] in H |- *. eexists _, _. split; [reflexivity|].
  destruct (Forall_inv H) as [Hy Vy]. destruct (Forall_inv (Forall_inv_tail H)) as [Hz Vz].
  change (fa_rect _ _ (new fexp sr at_ rt rc)) with rc in Vy.
  split; [exact Hy|]. split; [exact Hz|]. split.
  - assert (W : (if rc then Rabs (val x) else val x) = val x) by (destruct rc; [apply Rabs_pos_eq; lra|reflexivity]).
    rewrite W in Vy. rewrite Vy. clear Vy Vz. destruct (Rlt_dec _ _) as [Y|_]; [|reflexivity]. rewrite Rabs_pos_eq in Y by lra. lra.
  - rewrite Vz. clear Vy Vz. destruct (Rlt_dec _ _) as [_|N]; [reflexivity|]. exfalso. apply N. rewrite val_zero. destruct (fa_rect _ _ _); rewrite ?Rabs_R0; lra.
Qed.

Lemma nan_tick a x : flat a -> (is_nan (fa_last _ _ a) = true \/ is_finite x = false) ->
  is_nan (snd (far_tick prec emax a x)) = true /\ is_nan (fa_last _ _ (fst (far_tick prec emax a x))) = is_nan (snd (far_tick prec emax a x)) \/
  is_nan (fa_last _ _ a) = false.
Proof.
  intros [A B] H. destruct (is_nan (fa_last _ _ a)) eqn:N; [left|right; reflexivity].
  unfold far_tick. rewrite A, B. cbn [fst snd fa_last]. split; [|reflexivity].
  destruct (fa_last _ _ a) as [s|s| |s m e Hb]; try discriminate N.
  set (w := fmul prec emax (fsub prec emax (of_Z prec emax 1) zero) _).
  assert (E : fadd prec emax w (fmul prec emax zero B754_nan) = B754_nan) by (destruct w; reflexivity).
  rewrite E. destruct (flt _ _ _ _); reflexivity.
Qed.
Lemma nan_stays fexp xs : forall a, flat a -> is_nan (fa_last _ _ a) = true ->
  Forall (fun p => is_nan (snd p) = true) (snd (run fexp a (map (FarSample _ _) xs))).
Proof.
  induction xs as [|x t IH]; intros a A N; [constructor|]. cbn [map far_run snd].
  destruct (nan_tick a x A (or_introl N)) as [[H E]|H]; [|congruence].
  constructor; [exact H|]. apply IH; [exact A|rewrite E; exact H].
Qed.
(** Zero times an infinity. *)
Lemma bad_next a x y : flat a -> is_finite x = false ->
  let b := fst (far_tick prec emax a x) in is_nan (snd (far_tick prec emax b y)) = true.
Proof.
  intros [A B] Fx b.
  assert (L : is_finite (fa_last _ _ b) = false).
  { unfold b, far_tick. rewrite A, B. cbn [fst fa_last].
    set (r := if fa_rect _ _ a then fabs prec emax x else x).
    assert (Fr : is_finite r = false) by (unfold r, fabs; destruct (fa_rect _ _ a); [rewrite is_finite_Babs|]; exact Fx).
    set (o := fsub prec emax (of_Z prec emax 1) zero). set (z := fmul prec emax zero (fa_last _ _ a)).
    assert (Hc : is_finite (fadd prec emax (fmul prec emax o r) z) = false).
    { destruct r as [s|s| |s m e Hb]; try discriminate Fr.
      - destruct o as [s'|s'| |s' m' e' Hb']; try (destruct z as [s''|s''| |s'' m'' e'' Hb'']; reflexivity);
          (destruct z as [s''|s''| |s'' m'' e'' Hb'']; try reflexivity); cbn; destruct (Bool.eqb _ _); reflexivity.
      - destruct o as [s'|s'| |s' m' e' Hb']; destruct z; reflexivity. }
    assert (Hd : f_denormal prec emax (fadd prec emax (fmul prec emax o r) z) = false)
      by (destruct (fadd prec emax (fmul prec emax o r) z); try reflexivity; discriminate Hc).
    destruct (flt _ _ _ _); rewrite Hd; exact Hc. }
  change (fa_again _ _ b = zero) in A. change (fa_rgain _ _ b = zero) in B.
  unfold far_tick. rewrite A, B. cbn [snd].
  assert (Z0 : fmul prec emax zero (fa_last _ _ b) = B754_nan) by (destruct (fa_last _ _ b); try discriminate L; reflexivity).
  rewrite Z0. set (w := fmul prec emax (fsub prec emax (of_Z prec emax 1) zero) _).
  assert (E : fadd prec emax w B754_nan = B754_nan) by (destruct w; reflexivity). rewrite E. destruct (flt _ _ _ _); reflexivity.
Qed.

(** One infinite or undefined sample is enough: after any history, every later output is undefined, for
    as long as only samples arrive. *)
Theorem C147_recovery_refuted fexp sr at_ rt rc h x xs : ~ finite x ->
  Forall (fun p => nan (snd p))
    (snd (run fexp (fst (run fexp (new fexp sr at_ rt rc) (h ++ [FarSample _ _ x]))) (map (FarSample _ _) xs))).
Proof.
  intros Fx. assert (F : is_finite x = false) by (unfold finite in Fx; destruct (is_finite x); [contradiction Fx; reflexivity|reflexivity]).
  rewrite run_app. cbn [fst far_run]. set (a := fst (run fexp _ h)).
  assert (A : flat a) by (apply flat_run, flat_new).
  destruct xs as [|y t]; [constructor|]. cbn [map far_run snd].
  pose proof (bad_next a x y A F) as H. cbv zeta in H. constructor; [exact H|]. apply nan_stays; [exact A|exact H].
Qed.
End Format.

(** A follower of floats at 48 kHz with times of 1 s and 2 s, fed 1 and 0, then an infinity, then 1. *)
Example C147_example :
  let one := of_Z 24 128 1 in let z := fzero 24 128 in
  let a := far_new 24 128 (fun x => x) (of_Z 24 128 48000) one (of_Z 24 128 2) false in
  clean 24 128 [FarSample 24 128 one; FarSample 24 128 z] /\ ~ finite (B754_infinity false : binary_float 24 128) /\
  map (fun p => B2SF (snd p)) (snd (far_run 24 128 (fun x => x) a
    [FarSample 24 128 one; FarSample 24 128 z; FarSample 24 128 (B754_infinity false); FarSample 24 128 one; FarReset 24 128; FarSample 24 128 one])) =
  [B2SF one; B2SF z; SpecFloat.S754_infinity false; SpecFloat.S754_nan; B2SF one].
Proof.
  cbv zeta. split; [intros x [E|[E|[]]]; injection E as <-; reflexivity|]. split; [intros H; discriminate H|]. vm_compute. reflexivity.
Qed.
Print Assumptions C147_follower_actual.
Print Assumptions C147_smoothing_refuted.
Print Assumptions C147_recovery_refuted.
