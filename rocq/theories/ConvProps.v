(** Theorems C44-C46, C73, C74: converters. *)
From Verif Require Import RealBase RealBaseProofs BaseProofs AlgModel AlgSpec AlgProofs AlgProps FeatModel Cplx ConvModel.
Local Open Scope R_scope.
Local Open Scope res_scope.

Lemma ln10_pos : 0 < ln 10. Proof. rewrite <- ln_1. apply ln_increasing; lra. Qed.
Lemma ln2_pos : 0 < ln 2. Proof. rewrite <- ln_1. apply ln_increasing; lra. Qed.
Lemma log10_Rpower x : log10 (Rpower 10 x) = x.
Proof. unfold log10, Rpower. rewrite ln_exp. pose proof ln10_pos. field. lra. Qed.
Lemma Rpower_log10 x : 0 < x -> Rpower 10 (log10 x) = x.
Proof. intros H. unfold log10, Rpower. pose proof ln10_pos. replace (ln x / ln 10 * ln 10) with (ln x) by (field; lra). apply exp_ln; auto. Qed.
Lemma log10_incr x y : 0 < x -> x < y -> log10 x < log10 y.
Proof. intros. unfold log10. apply Rmult_lt_compat_r; [apply Rinv_0_lt_compat, ln10_pos|apply ln_increasing; auto]. Qed.
Lemma Rpower10_incr x y : x < y -> Rpower 10 x < Rpower 10 y.
Proof. intros. apply Rpower_lt; lra. Qed.

(** ** C44 *)
Theorem C44_decibel_round_trips :
  (forall m, 0 < m -> exists d, mag2db m = Ok d /\ db2mag d = m) /\ (forall p, 0 < p -> exists d, pow2db p = Ok d /\ db2pow d = p) /\
  (forall d, mag2db (db2mag d) = Ok d) /\ (forall d, pow2db (db2pow d) = Ok d) /\
  (forall d, db2mag d * db2mag d = db2pow d) /\ db2mag 0 = 1 /\ db2mag 20 = 10 /\ db2pow 10 = 10.
Proof.
  assert (P : forall x, 0 < Rpower 10 x) by (intros; unfold Rpower; apply exp_pos).
  split; [|split; [|split; [|split; [|split; [|split; [|split]]]]]].
  - intros m H. unfold mag2db. destruct (Rlt_dec 0 m); [|contradiction]. eexists. split; [reflexivity|]. unfold db2mag. replace (20 * log10 m / 20) with (log10 m) by field. apply Rpower_log10; auto.
  - intros m H. unfold pow2db. destruct (Rlt_dec 0 m); [|contradiction]. eexists. split; [reflexivity|]. unfold db2pow. replace (10 * log10 m / 10) with (log10 m) by field. apply Rpower_log10; auto.
  - intros d. unfold mag2db, db2mag. destruct (Rlt_dec 0 (Rpower 10 (d / 20))) as [_|N]; [|exfalso; apply N; auto]. rewrite log10_Rpower. f_equal. field.
  - intros d. unfold pow2db, db2pow. destruct (Rlt_dec 0 (Rpower 10 (d / 10))) as [_|N]; [|exfalso; apply N; auto]. rewrite log10_Rpower. f_equal. field.
  - intros d. unfold db2mag, db2pow. rewrite <- Rpower_plus. f_equal. field.
  - unfold db2mag. replace (0 / 20) with 0 by field. apply Rpower_O. lra.
  - unfold db2mag. replace (20 / 20) with 1 by field. apply Rpower_1. lra.
  - unfold db2pow. replace (10 / 10) with 1 by field. apply Rpower_1. lra.
Qed.
Theorem C44_decibel_monotone :
  (forall x y, x < y -> db2mag x < db2mag y /\ db2pow x < db2pow y) /\
  (forall x y, 0 < x -> x < y -> exists a b c d, mag2db x = Ok a /\ mag2db y = Ok b /\ a < b /\ pow2db x = Ok c /\ pow2db y = Ok d /\ c < d).
Proof.
  split.
  - intros x y H. split; apply Rpower10_incr; lra.
  - intros x y Hx H. unfold mag2db, pow2db. destruct (Rlt_dec 0 x), (Rlt_dec 0 y); try lra. exists (20 * log10 x), (20 * log10 y), (10 * log10 x), (10 * log10 y).
    pose proof (log10_incr x y Hx H). repeat split; auto; lra.
Qed.
Theorem C44_decibel_domain m : m <= 0 -> mag2db m = UB /\ pow2db m = UB.
Proof. intros H. unfold mag2db, pow2db. destruct (Rlt_dec 0 m); [lra|auto]. Qed.
Theorem C44_angles : (forall d, rad2deg (deg2rad d) = d) /\ (forall r, deg2rad (rad2deg r) = r) /\
  (forall x y, x < y -> deg2rad x < deg2rad y /\ rad2deg x < rad2deg y) /\ deg2rad 180 = PI /\ rad2deg (2 * PI) = 360.
Proof.
  pose proof PI_RGT_0. unfold rad2deg, deg2rad. split; [intros; field; lra|]. split; [intros; field; lra|]. split; [|split; field; lra].
  intros x y L. split.
  - unfold Rdiv. apply Rmult_lt_compat_r; [lra|]. apply Rmult_lt_compat_r; auto.
  - apply Rmult_lt_compat_r; [lra|]. unfold Rdiv. apply Rmult_lt_compat_r; auto. apply Rinv_0_lt_compat; auto.
Qed.

(** ** C45 *)
Theorem C45_mel f : 0 <= f -> exists m, hertz2mel f = Ok m /\ 0 <= m /\ mel2hertz m = f /\
  (forall g, f < g -> exists n, hertz2mel g = Ok n /\ m < n).
Proof.
  intros H. unfold hertz2mel. rewrite rlog_ok by lra. cbn [bind]. eexists. split; [reflexivity|]. split.
  { apply Rmult_le_pos; [lra|]. destruct (Req_EM_T f 0) as [->|]; [replace (1 + 0 / 700) with 1 by field; rewrite ln_1; lra|]. rewrite <- ln_1. left. apply ln_increasing; lra. }
  split.
  - unfold mel2hertz. replace (112701048 / 100000 * ln (1 + f / 700) / (112701048 / 100000)) with (ln (1 + f / 700)) by field. rewrite exp_ln by lra. field.
  - intros g G. rewrite rlog_ok by lra. cbn [bind]. eexists. split; [reflexivity|]. apply Rmult_lt_compat_l; [lra|]. apply ln_increasing; lra.
Qed.
Theorem C45_mel_inverse m : 0 <= m -> 0 <= mel2hertz m /\ hertz2mel (mel2hertz m) = Ok m.
Proof.
  intros H. assert (E : 1 <= exp (m / (112701048 / 100000))).
  { rewrite <- exp_0. destruct (Req_EM_T m 0) as [->|]; [right; f_equal; field|]. left. apply exp_increasing. apply Rdiv_lt_0_compat; lra. }
  unfold mel2hertz. split; [nra|]. unfold hertz2mel. set (e := exp (m / (112701048 / 100000))) in *. replace (1 + 700 * (e - 1) / 700) with e by field. rewrite rlog_ok by lra. cbn [bind].
  unfold e. rewrite ln_exp. f_equal. field.
Qed.
Theorem C45_erb f : 0 <= f -> exists m, hertz2erb f = Ok m /\ 0 <= m /\ erb2hertz m = f /\
  (forall g, f < g -> exists n, hertz2erb g = Ok n /\ m < n).
Proof.
  intros H. pose proof ln10_pos as L. unfold hertz2erb. rewrite rlog_ok by lra. cbn [bind]. eexists. split; [reflexivity|].
  assert (M : forall x y, x < y -> 214 / 10 * (x / ln 10) < 214 / 10 * (y / ln 10)) by (intros; apply Rmult_lt_compat_l; [lra|]; apply Rmult_lt_compat_r; auto; apply Rinv_0_lt_compat; auto).
  split.
  { destruct (Req_EM_T f 0) as [->|].
    - replace (1 + 437 / 100 * 0 / 1000) with 1 by field. rewrite ln_1. unfold Rdiv at 2. rewrite Rmult_0_l. lra.
    - left. replace 0 with (214 / 10 * (0 / ln 10)) by (field; lra). apply M. rewrite <- ln_1. apply ln_increasing; lra. }
  split.
  - unfold erb2hertz, Rpower. replace (214 / 10 * (ln (1 + 437 / 100 * f / 1000) / ln 10) / (214 / 10) * ln 10) with (ln (1 + 437 / 100 * f / 1000)) by (field; lra). rewrite exp_ln by lra. field.
  - intros g G. rewrite rlog_ok by lra. cbn [bind]. eexists. split; [reflexivity|]. apply M. apply ln_increasing; lra.
Qed.
Theorem C45_erb_inverse m : 0 <= m -> 0 <= erb2hertz m /\ hertz2erb (erb2hertz m) = Ok m.
Proof.
  intros H. pose proof ln10_pos as L. assert (E : 1 <= Rpower 10 (m / (214/10))).
  { rewrite <- (Rpower_O 10) by lra. destruct (Req_EM_T m 0) as [->|]; [right; f_equal; field|]. left. apply Rpower_lt; [lra|]. apply Rdiv_lt_0_compat; lra. }
  unfold erb2hertz. set (e := Rpower 10 (m / (214 / 10))) in *. split; [apply Rmult_le_pos; lra|]. unfold hertz2erb.
  replace (1 + 437 / 100 * ((e - 1) * 1000 / (437 / 100)) / 1000) with e by field. rewrite rlog_ok by lra. cbn [bind]. unfold e, Rpower. rewrite ln_exp. f_equal. field. lra.
Qed.

(** The raw Bark value of a frequency, before the corrections at the ends. *)
Lemma bark_raw f : 0 <= f -> exists b, rdiv (2681 / 100 * f) (1960 + f) = Ok (b + 53/100) /\ -53/100 <= b < 2628/100 /\ f = 1960 * (b + 53/100) / (2628/100 - b).
Proof.
  intros H. rewrite rdiv_ok by lra. exists (2681 / 100 * f / (1960 + f) - 53/100). split; [f_equal; ring|].
  assert (B : 0 <= f / (1960 + f) < 1).
  { split; [apply Rmult_le_pos; [auto|]; apply Rlt_le, Rinv_0_lt_compat; lra|]. apply Rmult_lt_reg_r with (1960 + f); [lra|]. unfold Rdiv. rewrite Rmult_assoc, Rinv_l by lra. lra. }
  replace (2681 / 100 * f / (1960 + f)) with (2681 / 100 * (f / (1960 + f))) by (field; lra). split; [lra|].
  assert (D : 2628 / 100 - (2681 / 100 * (f / (1960 + f)) - 53 / 100) = 2681/100 * (1960 / (1960 + f))) by (field; lra). rewrite D. field. lra.
Qed.
(** The correction applied to a raw value, strictly increasing with inverse [unfix]. *)
Definition bark_fix (b : R) : R := if Rlt_dec b 2 then b + 15/100 * (2 - b) else if Rlt_dec (201/10) b then b + 22/100 * (b - 201/10) else b.
Lemma bark_fix_incr a b : a < b -> bark_fix a < bark_fix b.
Proof. intros H. unfold bark_fix. destruct (Rlt_dec a 2), (Rlt_dec b 2); try destruct (Rlt_dec (201/10) a); try destruct (Rlt_dec (201/10) b); lra. Qed.
Lemma bark_unfix b : (if Rlt_dec (bark_fix b) 2 then (20 * bark_fix b - 6) / 17 else if Rlt_dec (201/10) (bark_fix b) then (50 * bark_fix b + 2211/10) / 61 else bark_fix b) = b.
Proof.
  unfold bark_fix. destruct (Rlt_dec b 2).
  - destruct (Rlt_dec (b + 15/100 * (2 - b)) 2); [field|lra].
  - destruct (Rlt_dec (201/10) b).
    + destruct (Rlt_dec (b + 22/100 * (b - 201/10)) 2); [lra|]. destruct (Rlt_dec (201/10) (b + 22/100 * (b - 201/10))); [field|lra].
    + destruct (Rlt_dec b 2); [lra|]. destruct (Rlt_dec (201/10) b); [lra|reflexivity].
Qed.
Theorem C45_bark f : 0 <= f -> exists z, hertz2bark f = Ok z /\ -1505/10000 <= z < 276396/10000 /\ bark2hertz z = Ok f /\
  (forall g, f < g -> exists y, hertz2bark g = Ok y /\ z < y).
Proof.
  intros H. destruct (bark_raw f H) as [b [E [B F]]].
  assert (V : forall g c, rdiv (2681 / 100 * g) (1960 + g) = Ok (c + 53/100) -> hertz2bark g = Ok (bark_fix c)).
  { intros g c Q. unfold hertz2bark. rewrite Q. cbn [bind]. replace (c + 53/100 - 53/100) with c by ring. reflexivity. }
  exists (bark_fix b). split; [apply V; auto|]. split; [unfold bark_fix; destruct (Rlt_dec b 2); try destruct (Rlt_dec (201/10) b); lra|]. split.
  - unfold bark2hertz. rewrite bark_unfix. rewrite rdiv_ok by lra. f_equal. auto.
  - intros g G. destruct (bark_raw g ltac:(lra)) as [c [E2 [B2 F2]]]. exists (bark_fix c). split; [apply V; auto|]. apply bark_fix_incr.
    destruct (Rlt_le_dec b c) as [|L]; auto. exfalso. 
    assert (M : g <= f).
    { rewrite F, F2. apply Rmult_le_reg_r with ((2628/100 - b) * (2628/100 - c)); [nra|].
      replace (1960 * (c + 53 / 100) / (2628 / 100 - c) * ((2628 / 100 - b) * (2628 / 100 - c))) with (1960 * (c + 53/100) * (2628/100 - b)) by (field; lra).
      replace (1960 * (b + 53 / 100) / (2628 / 100 - b) * ((2628 / 100 - b) * (2628 / 100 - c))) with (1960 * (b + 53/100) * (2628/100 - c)) by (field; lra). nra. }
    lra.
Qed.
Theorem C45_bark_inverse z : -1505/10000 <= z < 276396/10000 -> exists f, bark2hertz z = Ok f /\ 0 <= f /\ hertz2bark f = Ok z.
Proof.
  intros H. set (b := if Rlt_dec z 2 then (20 * z - 6) / 17 else if Rlt_dec (201/10) z then (50 * z + 2211/10) / 61 else z).
  assert (B : -53/100 <= b < 2628/100 /\ bark_fix b = z).
  { unfold b, bark_fix. destruct (Rlt_dec z 2).
    - split; [lra|]. destruct (Rlt_dec ((20 * z - 6) / 17) 2); [field|lra].
    - destruct (Rlt_dec (201/10) z).
      + split; [lra|]. destruct (Rlt_dec ((50 * z + 2211/10) / 61) 2); [lra|]. destruct (Rlt_dec (201/10) ((50 * z + 2211/10) / 61)); [field|lra].
      + split; [lra|]. destruct (Rlt_dec z 2); [lra|]. destruct (Rlt_dec (201/10) z); [lra|auto]. }
  destruct B as [B FX]. exists (1960 * (b + 53/100) / (2628/100 - b)). split; [unfold bark2hertz; fold b; apply rdiv_ok; lra|].
  assert (P : 0 <= 1960 * (b + 53 / 100) / (2628 / 100 - b)) by (apply Rmult_le_pos; [lra|]; apply Rlt_le, Rinv_0_lt_compat; lra). split; auto.
  unfold hertz2bark. assert (D : 1960 + 1960 * (b + 53 / 100) / (2628 / 100 - b) = 1960 * (2681/100) / (2628/100 - b)) by (field; lra). rewrite D.
  rewrite rdiv_ok by (rewrite <- D; lra). cbn [bind]. 
  replace (2681 / 100 * (1960 * (b + 53 / 100) / (2628 / 100 - b)) / (1960 * (2681 / 100) / (2628 / 100 - b)) - 53/100) with b by (field; lra). 
  f_equal. exact FX.
Qed.

(** ** C46 *)
(** The frequency of cent value zero: 440 * 2^(-57/12), about 16.35 Hz. *)
Definition cent_ref : R := 440 * Rpower 2 (-(57) / 12).
Lemma cent_p_pos : 0 < cent_p. Proof. unfold cent_p. apply Rdiv_lt_0_compat; [lra|apply ln2_pos]. Qed.
Lemma cent_ref_pos : 0 < cent_ref. Proof. unfold cent_ref, Rpower. pose proof (exp_pos (-(57) / 12 * ln 2)). nra. Qed.
Lemma ln_cent_ref : ln cent_ref = - cent_q / cent_p.
Proof.
  unfold cent_ref. rewrite ln_mult by (try lra; unfold Rpower; apply exp_pos). unfold Rpower. rewrite ln_exp. unfold cent_q, cent_p. pose proof ln2_pos. field. lra.
Qed.
Lemma cents_of z : 0 < z -> cent_p * ln z + cent_q = cent_p * (ln z - ln cent_ref).
Proof. intros. rewrite ln_cent_ref. pose proof cent_p_pos. field. lra. Qed.
Lemma cents_sign z : 0 < z -> (cent_p * ln z + cent_q < 0 <-> z < cent_ref).
Proof.
  intros H. rewrite cents_of by auto. pose proof cent_p_pos. pose proof cent_ref_pos. split; intros L.
  - apply ln_lt_inv; auto. nra.
  - assert (ln z < ln cent_ref) by (apply ln_increasing; auto). nra.
Qed.
(** What the round trip returns for every positive frequency. *)
Theorem C46_cent_actual f : 0 < f -> exists c, hertz2cent f = Ok c /\
  (cent_ref <= f -> 0 <= c /\ cent2hertz c = f) /\ (f < cent_ref -> c < 0 /\ cent2hertz c = - (cent_ref * cent_ref / f)).
Proof.
  intros H. unfold hertz2cent. rewrite Rabs_right by lra. rewrite rlog_ok by auto. cbn [bind]. unfold nsign at 1. destruct (Rlt_dec f 0); [lra|].
  eexists. split; [reflexivity|]. rewrite Rmult_1_l. set (c := cent_p * ln f + cent_q). pose proof cent_p_pos as P. pose proof cent_ref_pos as Q. split; intros L.
  - assert (C : 0 <= c) by (destruct (Rlt_le_dec c 0) as [N|]; auto; apply cents_sign in N; lra). split; auto. unfold cent2hertz, nsign. destruct (Rlt_dec c 0); [lra|]. rewrite Rabs_right by lra.
    replace ((c - cent_q) / cent_p) with (ln f) by (unfold c; field; lra). rewrite exp_ln by auto. ring.
  - assert (C : c < 0) by (apply cents_sign; auto). split; auto. unfold cent2hertz, nsign. destruct (Rlt_dec c 0); [|lra]. rewrite Rabs_left by lra.
    replace ((- c - cent_q) / cent_p) with (ln cent_ref + (ln cent_ref + - ln f)) by (unfold c; rewrite ln_cent_ref; field; lra).
    rewrite !exp_plus, exp_Ropp, !exp_ln by auto. field. lra.
Qed.
(** Below the reference frequency the result is not even positive. *)
Theorem C46_cent_refuted f : 0 < f < cent_ref -> exists c, hertz2cent f = Ok c /\ cent2hertz c < 0.
Proof.
  intros [H L]. destruct (C46_cent_actual f H) as [c [E [_ A]]]. exists c. split; auto. destruct (A L) as [_ ->]. pose proof cent_ref_pos. assert (0 < cent_ref * cent_ref / f) by (apply Rdiv_lt_0_compat; nra). lra.
Qed.
Theorem C46_cent_scale f g : 0 < f -> 0 < g -> exists c d, hertz2cent f = Ok c /\ hertz2cent g = Ok d /\ d - c = 1200 * (ln (g / f) / ln 2) /\ (f < g -> c < d).
Proof.
  intros F G. unfold hertz2cent. rewrite !Rabs_right by lra. rewrite !rlog_ok by auto. cbn [bind]. unfold nsign. destruct (Rlt_dec f 0), (Rlt_dec g 0); try lra.
  eexists. eexists. split; [reflexivity|]. split; [reflexivity|]. split.
  - assert (Q : ln (g / f) = ln g + - ln f) by (unfold Rdiv; rewrite ln_mult by (try apply Rinv_0_lt_compat; auto); rewrite ln_Rinv by auto; ring). rewrite Q. unfold cent_p. pose proof ln2_pos. field. lra.
  - intros L. assert (ln f < ln g) by (apply ln_increasing; auto). pose proof cent_p_pos. nra.
Qed.
Theorem C46_cent_zero : hertz2cent 0 = NonFinite.
Proof. unfold hertz2cent. rewrite Rabs_R0. unfold rlog. destruct (Rlt_dec 0 0); [lra|reflexivity]. Qed.
Lemma cent_ref_range : 1 < cent_ref < 110.
Proof.
  unfold cent_ref. assert (A : Rpower 2 (-(57)/12) < Rpower 2 (-2)) by (apply Rpower_lt; lra). assert (B : Rpower 2 (-5) < Rpower 2 (-(57)/12)) by (apply Rpower_lt; lra).
  assert (E2 : Rpower 2 (-2) = / 4). { replace (-2) with (- INR 2) by (simpl; ring). rewrite Rpower_Ropp, Rpower_pow by lra. simpl. f_equal. ring. }
  assert (E5 : Rpower 2 (-5) = / 32). { replace (-5) with (- INR 5) by (simpl; ring). rewrite Rpower_Ropp, Rpower_pow by lra. simpl. f_equal. ring. }
  rewrite E2 in A. rewrite E5 in B. lra.
Qed.
Example C46_ex : 0 < 1 < cent_ref. Proof. pose proof cent_ref_range. lra. Qed.

(** ** C73: the ...space functions *)
Lemma audspace_general conv val mem first n mn mx : (2 <= n)%nat -> in_range mem first n ->
  (forall i, (i < n)%nat -> conv (mn + INR i * ((mx - mn) / (INR n - 1))) = Ok (val i)) ->
  exists mem', audspace_with conv mem first n mn mx = Ok mem' /\ length mem' = length mem /\
   (forall i, (i < n)%nat -> nth_error mem' (first + i) = Some (val i)) /\ (forall j, (j < first \/ first + n <= j)%nat -> nth_error mem' j = nth_error mem j).
Proof.
  intros Hn Hr Hv. unfold audspace_with. destruct (C23_linspace mem first mn mx n Hn Hr) as [m [E [L [P [_ [_ Q]]]]]]. rewrite E. cbn [bind].
  assert (Hr' : in_range m first n) by (unfold in_range in *; lia).
  assert (LT : forall k first m, in_range m first k -> (forall i, (i < k)%nat -> exists x, nth_error m (first + i) = Some x /\ exists v, conv x = Ok v) ->
    exists m', mtransform conv m first first k = Ok m' /\ length m' = length m /\ (forall i x v, (i < k)%nat -> nth_error m (first + i) = Some x -> conv x = Ok v -> nth_error m' (first + i) = Some v) /\
      (forall j, (j < first \/ first + k <= j)%nat -> nth_error m' j = nth_error m j)).
  { clear. induction k as [|k IH]; intros first m Hr H.
    - exists m. repeat split; auto. intros; lia.
    - destruct (H 0%nat ltac:(lia)) as [x [X [v V]]]. rewrite Nat.add_0_r in X. cbn [mtransform]. unfold load. rewrite X. cbn [bind]. rewrite V. cbn [bind].
      assert (S : exists m1, store m first v = Ok m1 /\ length m1 = length m /\ nth_error m1 first = Some v /\ (forall j, j <> first -> nth_error m1 j = nth_error m j)).
      { unfold in_range in Hr. destruct (store_ok m first v ltac:(lia)) as [m1 [S1 [S2 [S3 S4]]]]. exists m1. auto. }
      destruct S as [m1 [S1 [S2 [S3 S4]]]]. rewrite S1. cbn [bind]. destruct (IH (S first) m1) as [m' [E [L [P Q]]]].
      + unfold in_range in *. lia.
      + intros i Hi. destruct (H (S i) ltac:(lia)) as [y [Y W]]. exists y. split; auto. rewrite S4 by lia. rewrite <- Y. f_equal. lia.
      + exists m'. split; auto. split; [lia|]. split.
        * intros i y w Hi Y W. destruct i as [|i].
          -- rewrite Nat.add_0_r in *. rewrite Q by lia. rewrite S3. congruence.
          -- replace (first + S i)%nat with (S first + i)%nat by lia. apply (P i y w); [lia| |auto]. rewrite S4 by lia. rewrite <- Y. f_equal. lia.
        * intros j Hj. rewrite Q by lia. apply S4. lia. }
  destruct (LT n first m Hr') as [m' [E' [L' [P' Q']]]].
  - intros i Hi. rewrite P by auto. eexists. split; [reflexivity|]. exists (val i). auto.
  - exists m'. split; auto. split; [lia|]. split.
    + intros i Hi. apply (P' i _ _ Hi (P i Hi)). auto.
    + intros j Hj. rewrite Q', Q by auto. reflexivity.
Qed.
Lemma lin_point mn mx n i : (2 <= n)%nat -> (i < n)%nat -> mn <= mx -> mn <= mn + INR i * ((mx - mn) / (INR n - 1)) <= mx.
Proof.
  intros Hn Hi H. assert (N : 1 <= INR n - 1) by (apply le_INR in Hn; simpl in Hn; lra). assert (I : 0 <= INR i <= INR n - 1).
  { split; [apply pos_INR|]. assert (INR i + 1 <= INR n) by (rewrite <- S_INR; apply le_INR; lia). lra. }
  assert (0 <= (mx - mn) / (INR n - 1)) by (apply Rmult_le_pos; [lra|]; apply Rlt_le, Rinv_0_lt_compat; lra).
  split; [nra|]. replace mx with (mn + (INR n - 1) * ((mx - mn) / (INR n - 1))) at 2 by (field; lra). nra.
Qed.
(** Every function of the family writes the converted equidistant frequencies: the ends are the
    converted ends. *)
Theorem C73_space_values conv space mem first n mn mx :
  In (space, conv) [(melspace, hertz2mel); (erbspace, hertz2erb); (barkspace, hertz2bark); (centspace, hertz2cent)] ->
  (2 <= n)%nat -> in_range mem first n -> 0 < mn <= mx ->
  exists mem', space mem first n mn mx = Ok mem' /\ length mem' = length mem /\
   (forall i, (i < n)%nat -> exists v, conv (mn + INR i * ((mx - mn) / (INR n - 1))) = Ok v /\ nth_error mem' (first + i) = Some v) /\
   (exists lo hi, conv mn = Ok lo /\ conv mx = Ok hi /\ nth_error mem' first = Some lo /\ nth_error mem' (first + (n - 1)) = Some hi) /\
   (forall j, (j < first \/ first + n <= j)%nat -> nth_error mem' j = nth_error mem j).
Proof.
  intros HI Hn Hr Hm.
  assert (T : forall f, 0 < f -> exists v, conv f = Ok v).
  { intros f F. simpl in HI. destruct HI as [E|[E|[E|[E|[]]]]]; injection E as _ <-.
    - destruct (C45_mel f ltac:(lra)) as [v [Q _]]. eauto.
    - destruct (C45_erb f ltac:(lra)) as [v [Q _]]. eauto.
    - destruct (C45_bark f ltac:(lra)) as [v [Q _]]. eauto.
    - destruct (C46_cent_actual f F) as [v [Q _]]. eauto. }
  assert (SP : space = audspace_with conv) by (simpl in HI; destruct HI as [E|[E|[E|[E|[]]]]]; injection E as <- <-; reflexivity). rewrite SP. clear SP HI.
  set (val := fun i => match conv (mn + INR i * ((mx - mn) / (INR n - 1))) with Ok v => v | _ => 0 end).
  assert (V : forall i, (i < n)%nat -> conv (mn + INR i * ((mx - mn) / (INR n - 1))) = Ok (val i)).
  { intros i Hi. unfold val. destruct (T (mn + INR i * ((mx - mn) / (INR n - 1)))) as [v ->]; auto. pose proof (lin_point mn mx n i Hn Hi). lra. }
  destruct (audspace_general conv val mem first n mn mx Hn Hr V) as [m [E [L [P Q]]]]. exists m. split; auto. split; auto. split; [intros i Hi; exists (val i); split; auto|]. split; auto.
  assert (NN : 0 < INR n - 1) by (apply le_INR in Hn; simpl in Hn; lra).
  exists (val 0%nat), (val (n - 1)%nat). split; [|split; [|split]].
  - rewrite <- (V 0%nat) by lia. f_equal. simpl. ring.
  - rewrite <- (V (n - 1)%nat) by lia. f_equal. rewrite minus_INR by lia. simpl. field. lra.
  - rewrite <- (P 0%nat) by lia. f_equal. lia.
  - apply P. lia.
Qed.
(** They are not uniformly spaced on the scale: on the Mel, ERB and cent scales the first step is
    strictly larger than the second, whatever the bounds and the number of points. *)
Lemma ln_concave a b c : 0 < a -> a < b -> b - a = c - b -> ln c - ln b < ln b - ln a.
Proof.
  intros A B E. assert (ln (c * a) < ln (b * b)) by (apply ln_increasing; nra). rewrite !ln_mult in H by lra. lra.
Qed.
Theorem C73_spacing_refuted conv space mem first n mn mx :
  In (space, conv) [(melspace, hertz2mel); (erbspace, hertz2erb); (centspace, hertz2cent)] ->
  (3 <= n)%nat -> in_range mem first n -> 0 < mn < mx ->
  exists mem' a b c, space mem first n mn mx = Ok mem' /\ nth_error mem' first = Some a /\ nth_error mem' (first + 1) = Some b /\ nth_error mem' (first + 2) = Some c /\ c - b < b - a.
Proof.
  intros HI Hn Hr Hm.
  assert (HI' : In (space, conv) [(melspace, hertz2mel); (erbspace, hertz2erb); (barkspace, hertz2bark); (centspace, hertz2cent)]) by (simpl in *; tauto).
  destruct (C73_space_values conv space mem first n mn mx HI' ltac:(lia) Hr ltac:(lra)) as [m [E [_ [P _]]]]. exists m.
  assert (NN : 1 < INR n - 1) by (assert (Q : (3 <= n)%nat) by lia; apply le_INR in Q; simpl in Q; lra).
  set (d := (mx - mn) / (INR n - 1)) in *. assert (D : 0 < d) by (apply Rdiv_lt_0_compat; lra).
  destruct (P 0%nat ltac:(lia)) as [a [Ca Na]]. destruct (P 1%nat ltac:(lia)) as [b [Cb Nb]]. destruct (P 2%nat ltac:(lia)) as [c [Cc Nc]]. rewrite Nat.add_0_r in Na.
  exists a, b, c. repeat split; auto. clear P E. simpl INR in *. replace (mn + 0 * d) with mn in Ca by ring. replace (mn + 1 * d) with (mn + d) in Cb by ring. replace (mn + (1 + 1) * d) with (mn + 2 * d) in Cc by ring.
  simpl in HI. destruct HI as [Q|[Q|[Q|[]]]]; injection Q as _ <-.
  - unfold hertz2mel in *. rewrite rlog_ok in Ca, Cb, Cc by lra. cbn [bind] in *. injection Ca as <-. injection Cb as <-. injection Cc as <-.
    pose proof (ln_concave (1 + mn / 700) (1 + (mn + d) / 700) (1 + (mn + 2 * d) / 700)). lra.
  - unfold hertz2erb in *. rewrite rlog_ok in Ca, Cb, Cc by lra. cbn [bind] in *. injection Ca as <-. injection Cb as <-. injection Cc as <-.
    pose proof (ln_concave (1 + 437/100 * mn / 1000) (1 + 437/100 * (mn + d) / 1000) (1 + 437/100 * (mn + 2 * d) / 1000)) as K. pose proof ln10_pos as L. assert (I : 0 < / ln 10) by (apply Rinv_0_lt_compat; auto).
    unfold Rdiv in *. specialize (K ltac:(lra) ltac:(lra) ltac:(lra)). nra.
  - unfold hertz2cent in *. rewrite !Rabs_right in Ca, Cb, Cc by lra. rewrite rlog_ok in Ca, Cb, Cc by lra. cbn [bind] in *. injection Ca as <-. injection Cb as <-. injection Cc as <-.
    unfold nsign. destruct (Rlt_dec mn 0), (Rlt_dec (mn + d) 0), (Rlt_dec (mn + 2 * d) 0); try lra.
    pose proof (ln_concave mn (mn + d) (mn + 2 * d)) as K. pose proof cent_p_pos. specialize (K ltac:(lra) ltac:(lra) ltac:(lra)). nra.
Qed.
Theorem C73_barkspace_refuted : exists a b c, barkspace [0; 0; 0] 0 3 490 2940 = Ok [a; b; c] /\ c - b < b - a.
Proof.
  destruct (C73_space_values hertz2bark barkspace [0; 0; 0] 0 3 490 2940) as [m [E [L [P _]]]]; [simpl; auto|lia|unfold in_range; simpl; lia|lra|].
  destruct (P 0%nat ltac:(lia)) as [a [Ca Na]]. destruct (P 1%nat ltac:(lia)) as [b [Cb Nb]]. destruct (P 2%nat ltac:(lia)) as [c [Cc Nc]]. exists a, b, c.
  destruct m as [|x0 [|x1 [|x2 [|]]]]; simpl in L; try discriminate. simpl in Na, Nb, Nc. injection Na as ->. injection Nb as ->. injection Nc as ->. split; auto.
  unfold hertz2bark in *. simpl INR in *. rewrite rdiv_ok in Ca by lra. rewrite rdiv_ok in Cb by lra. rewrite rdiv_ok in Cc by lra. cbn [bind] in *.
  injection Ca as Ca. injection Cb as Cb. injection Cc as Cc.
  repeat match type of Ca with context [Rlt_dec ?x ?y] => destruct (Rlt_dec x y); try lra end;
  repeat match type of Cb with context [Rlt_dec ?x ?y] => destruct (Rlt_dec x y); try lra end;
  repeat match type of Cc with context [Rlt_dec ?x ?y] => destruct (Rlt_dec x y); try lra end; lra.
Qed.
Example C73_ex : in_range (repeat 0 5) 1 3 /\ 0 < 100 < 8000. Proof. unfold in_range. simpl. split; [lia|lra]. Qed.

(** ** C74 *)
Theorem C74_complex_round_trip re im : length im = length re -> exists z, real2complex2 re im = Ok z /\ length z = length re /\ complex2real z = (re, im).
Proof.
  revert im. induction re as [|x re IH]; intros [|y im] L; try discriminate; [exists []; auto|]. injection L as L. destruct (IH im L) as [z [E [Z1 Z2]]]. exists ((x, y) :: z). cbn [real2complex2]. rewrite E. cbn [bind].
  split; auto. split; [cbn [length]; lia|]. unfold complex2real in *. cbn [map]. injection Z2 as -> ->. reflexivity.
Qed.
Theorem C74_split_join z : real2complex2 (fst (complex2real z)) (snd (complex2real z)) = Ok z.
Proof. unfold complex2real. cbn [fst snd]. induction z as [|[a b] z IH]; auto. cbn [map real2complex2]. rewrite IH. reflexivity. Qed.
Theorem C74_real_only re : complex2real (real2complex1 re) = (re, repeat 0 (length re)).
Proof. unfold complex2real, real2complex1. rewrite !map_map. f_equal; induction re as [|x re IH]; auto; cbn [map length repeat]; f_equal; auto. Qed.
Theorem C74_short_second re im : (length im < length re)%nat -> real2complex2 re im = UB.
Proof.
  revert im. induction re as [|x re IH]; intros im L; [cbn [length] in L; lia|]. destruct im as [|y im]; [reflexivity|]. cbn [real2complex2]. rewrite IH by (cbn [length] in L; lia). reflexivity.
Qed.
Print Assumptions C44_decibel_round_trips.
Print Assumptions C44_decibel_monotone.
Print Assumptions C44_decibel_domain.
Print Assumptions C44_angles.
Print Assumptions C45_mel.
Print Assumptions C45_mel_inverse.
Print Assumptions C45_erb.
Print Assumptions C45_erb_inverse.
Print Assumptions C45_bark.
Print Assumptions C45_bark_inverse.
Print Assumptions C46_cent_actual.
Print Assumptions C46_cent_refuted.
Print Assumptions C46_cent_scale.
Print Assumptions C46_cent_zero.
Print Assumptions C73_space_values.
Print Assumptions C73_spacing_refuted.
Print Assumptions C73_barkspace_refuted.
Print Assumptions C74_complex_round_trip.
Print Assumptions C74_split_join.
Print Assumptions C74_real_only.
Print Assumptions C74_short_second.
