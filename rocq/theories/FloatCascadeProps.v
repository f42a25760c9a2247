(** Cascades of second-order sections in IEEE formats. *)
From Coq Require Import ZArith Reals List Bool Lia Lra Psatz.
From Flocq Require Import Core BinarySingleNaN.
From Verif Require Import Base FloatModel FloatFiltersModel FloatSpec FloatProofs FloatProps FloatOrderProps FloatFilterProps.
From Verif Require BiquadModel BiquadSpec BiquadProofs StabilityProofs CascadeProofs Cplx.
Import ListNotations.
Local Open Scope R_scope.

Section Format.
Context (prec emax : Z) {Hprec : Prec_gt_0 prec} {Hmax : Prec_lt_emax prec emax}.
Notation fl := (binary_float prec emax).
Notation val := (@B2R prec emax).
Notation u := (roundoff prec).
Notation section := (fsection prec emax).
Notation zero := (fzero prec emax).
Notation B0 s := (fb0 prec emax s). Notation B1 s := (fb1 prec emax s). Notation B2 s := (fb2 prec emax s).
Notation A1 s := (fa1 prec emax s). Notation A2 s := (fa2 prec emax s).

(** The same section in exact arithmetic, at rest. *)
Definition exact (s : section) : BiquadModel.biquad := BiquadModel.mkBq (val (B2 s)) (val (B1 s)) (val (B0 s)) (val (A2 s)) (val (A1 s)) 1 0 0.
(** A section at rest with finite coefficients whose poles are p and r. *)
Definition stable_section (s : section) (p r : Cplx.C) : Prop :=
  finite (B0 s) /\ finite (B1 s) /\ finite (B2 s) /\ finite (A1 s) /\ finite (A2 s) /\ fstate prec emax s = (zero, zero) /\
  (forall z, Cplx.Cadd (Cplx.Cadd (Cplx.Cmul z z) (Cplx.Cmul (Cplx.RtoC (val (A1 s))) z)) (Cplx.RtoC (val (A2 s))) = Cplx.Cmul (Cplx.Csub z p) (Cplx.Csub z r)) /\
  Cplx.Cmod p < 1 /\ Cplx.Cmod r < 1.
Definition feed (s : section) : R := Rabs (val (B0 s)) + Rabs (val (B1 s)) + Rabs (val (B2 s)).
Definition back (s : section) : R := Rabs (val (A1 s)) + Rabs (val (A2 s)).
Definition recursion (p r : Cplx.C) : R := / ((1 - Cplx.Cmod p) * (1 - Cplx.Cmod r)).
(** The error of one step of a section with inputs below X and outputs below Y. *)
Definition step_error (s : section) (X Y : R) : R := ((1 + u) ^ 4 - 1) * (feed s * X + back s * Y) + 3 * (1 + u) ^ 3 * smallest prec emax.
(** [budget ss X D Y D']: inputs below X and within D of the exact ones give outputs below Y and within D'.
    Each section multiplies the error it receives by its gain and adds its own. *)
Inductive budget : list section -> R -> R -> R -> R -> Prop :=
| budget_nil X D : budget [] X D X D
| budget_cons s ss p r X D Y Z D' : stable_section s p r -> 0 <= Y ->
    recursion p r * (feed s * X + step_error s X Y) <= Y -> feed s * X + back s * Y + step_error s X Y < IZR (2 ^ emax) ->
    budget ss Y (recursion p r * (step_error s X Y + feed s * D)) Z D' -> budget (s :: ss) X D Z D'.

Lemma cascade_cons xs : forall s ss,
  snd (f_cascade prec emax (s :: ss) xs) = snd (f_cascade prec emax ss (snd (f_filter prec emax (B0 s) (B1 s) (B2 s) (A1 s) (A2 s) (fstate prec emax s) xs))).
Proof.
  induction xs as [|x xs IH]; intros s ss; [reflexivity|]. cbn [f_cascade fchain_tick f_filter]. cbv zeta. cbn [fst snd fs_tick]. cbv zeta. cbn [fst snd].
  f_equal. rewrite IH. cbn [fb0 fb1 fb2 fa1 fa2 fstate]. reflexivity.
Qed.
Lemma cascade_nil xs : snd (f_cascade prec emax [] xs) = xs.
Proof. induction xs as [|x xs IH]; [reflexivity|]. cbn [f_cascade fchain_tick fst snd]. f_equal. exact IH. Qed.

(** The exact section is linear: inputs D apart give outputs at most H B D apart. *)
Lemma exact_lipschitz (s : section) p r D xs zs : stable_section s p r -> 0 <= D -> Forall2 (fun x z => Rabs (x - z) <= D) xs zs ->
  Forall2 (fun y y' => Rabs (y - y') <= recursion p r * (feed s * D)) (snd (BiquadModel.bq_filter (exact s) xs)) (snd (BiquadModel.bq_filter (exact s) zs)).
Proof.
  intros [_ [_ [_ [_ [_ [_ [FA [Mp Mr]]]]]]]] HD H. destruct (coefficients _ _ _ _ FA) as [Es Ep]. assert (L : length xs = length zs) by (clear -H; induction H; cbn; auto).
  pose proof (proj1 (BiquadProofs.obeys_P _ _ _ _ _ _ _ _) (BiquadProofs.biquad_obeys (exact s) xs eq_refl eq_refl)) as [LY EY].
  pose proof (proj1 (BiquadProofs.obeys_P _ _ _ _ _ _ _ _) (BiquadProofs.biquad_obeys (exact s) zs eq_refl eq_refl)) as [LZ EZ].
  set (ys := snd (BiquadModel.bq_filter (exact s) xs)) in *. set (ws := snd (BiquadModel.bq_filter (exact s) zs)) in *.
  cbn [exact BiquadModel.a1 BiquadModel.a2 BiquadModel.b0 BiquadModel.b1 BiquadModel.b2] in EY, EZ.
  assert (NX : forall k, Rabs (nth k xs 0 - nth k zs 0) <= D).
  { intros k. destruct (lt_dec k (length xs)) as [K|K].
    - clear -H K. revert k K. induction H as [|x z xs zs H' H IH]; intros k K; [cbn in K; lia|]. destruct k; [exact H'|]. cbn. apply IH. cbn in K. lia.
    - rewrite !nth_overflow by lia. rewrite Rminus_0_r, Rabs_R0. exact HD. }
  assert (SD : forall (f g : nat -> R) n, BiquadProofs.sh (fun k => f k - g k) n = BiquadProofs.sh f n - BiquadProofs.sh g n) by (intros f g [|n]; cbn; lra).
  assert (SD2 : forall (f g : nat -> R) n, BiquadProofs.sh (BiquadProofs.sh (fun k => f k - g k)) n = BiquadProofs.sh (BiquadProofs.sh f) n - BiquadProofs.sh (BiquadProofs.sh g) n) by (intros f g [|[|n]]; cbn; lra).
  assert (Q : forall k, (k < length xs)%nat -> Rabs (nth k ys 0 - nth k ws 0) <= recursion p r * (feed s * D)).
  { intros k K. unfold recursion. replace (/ ((1 - Cplx.Cmod p) * (1 - Cplx.Cmod r)) * (feed s * D)) with (feed s * D / (1 - Cplx.Cmod r) / (1 - Cplx.Cmod p)) by (field; lra).
    apply (StabilityProofs.second_order_bound p r (fun k => nth k ys 0 - nth k ws 0) (BiquadProofs.P (val (B0 s)) (val (B1 s)) (val (B2 s)) (fun k => nth k xs 0 - nth k zs 0)) _ _ _ (length xs) Es Ep Mp Mr); auto.
    - intros j J. specialize (EY j J). specialize (EZ j ltac:(lia)). unfold BiquadProofs.P in *. rewrite !SD, !SD2. unfold BiquadProofs.seqof in *. lra.
    - intros j J. apply (StabilityProofs.P_bound _ _ _ (fun k => nth k xs 0 - nth k zs 0) D (length xs)); auto. }
  clear -Q LY LZ L. assert (L' : length ys = length ws) by lia. rewrite <- LY in Q. clearbody ys ws. clear -Q L'. revert ws L' Q. induction ys as [|y ys IH]; intros [|w ws] L Q; try discriminate L; constructor.
  - apply (Q 0%nat). cbn. lia.
  - apply IH; [injection L; auto|]. intros k K. apply (Q (S k)). cbn. lia.
Qed.

(** C124: a cascade of stable sections in floating point stays finite and bounded, and within the
    accumulated budget of the cascade in exact arithmetic, for every signal. *)
Theorem C124_cascade ss X Y D xs : budget ss X 0 Y D -> 0 <= X -> Forall (fun x => finite x /\ Rabs (val x) <= X) xs ->
  Forall2 (fun y z => finite y /\ Rabs (val y) <= Y /\ Rabs (val y - z) <= D)
    (snd (f_cascade prec emax ss xs)) (BiquadSpec.through (map exact ss) (map val xs)).
Proof.
  intros H HX Hx.
  assert (G : forall ss X D Y D', budget ss X D Y D' -> 0 <= X -> 0 <= D -> forall xs zs, Forall2 (fun x z => finite x /\ Rabs (val x) <= X /\ Rabs (val x - z) <= D) xs zs ->
    Forall2 (fun y z => finite y /\ Rabs (val y) <= Y /\ Rabs (val y - z) <= D') (snd (f_cascade prec emax ss xs)) (BiquadSpec.through (map exact ss) zs)).
  { clear. intros ss X D Y D' H. induction H as [X D|s ss p r X D Y Z D' S HY HG HB H IH]; intros HX HD xs zs F.
    - rewrite cascade_nil. exact F.
    - assert (F1 : Forall (fun x => finite x /\ Rabs (val x) <= X) xs) by (clear -F; induction F as [|x z xs zs [A [B _]] F IH]; constructor; auto).
      assert (F2 : Forall2 (fun x z => Rabs (x - z) <= D) (map val xs) zs) by (clear -F; induction F as [|x z xs zs [A [B K]] F IH]; cbn; constructor; auto).
      pose proof S as [Q0 [Q1 [Q2 [Q3 [Q4 [QS [FA [Mp Mr]]]]]]]].
      pose proof (C123_bounded prec emax _ _ _ _ _ X Y p r xs Q0 Q1 Q2 Q3 Q4 FA Mp Mr HX HY HG HB F1) as R1.
      pose proof (exact_lipschitz s p r D _ _ S HD F2) as R2.
      rewrite cascade_cons, QS. cbn [map]. unfold BiquadSpec.through. cbn [fold_left]. fold (BiquadSpec.through (map exact ss) (snd (BiquadModel.bq_filter (exact s) zs))).
      assert (HR : 0 < recursion p r) by (apply Rinv_0_lt_compat; apply Rmult_lt_0_compat; lra).
      assert (HF : 0 <= feed s) by (unfold feed; repeat apply Rplus_le_le_0_compat; apply Rabs_pos).
      assert (HA : 0 <= back s) by (unfold back; repeat apply Rplus_le_le_0_compat; apply Rabs_pos).
      assert (HE : 0 <= step_error s X Y).
      { unfold step_error. destruct (powers prec) as [P1 [P2 [P3 P4]]]. pose proof (t_pos prec emax) as T. apply Rplus_le_le_0_compat; [apply Rmult_le_pos; [lra|]; apply Rplus_le_le_0_compat; apply Rmult_le_pos; auto|]. apply Rmult_le_pos; lra. }
      apply IH; auto. { apply Rmult_le_pos; [lra|]. apply Rplus_le_le_0_compat; auto. apply Rmult_le_pos; auto. }
      change (BiquadModel.mkBq (val (B2 s)) (val (B1 s)) (val (B0 s)) (val (A2 s)) (val (A1 s)) 1 0 0) with (exact s) in R1.
      change (/ ((1 - Cplx.Cmod p) * (1 - Cplx.Cmod r))) with (recursion p r) in R1.
      generalize dependent (snd (BiquadModel.bq_filter (exact s) zs)). generalize dependent (snd (BiquadModel.bq_filter (exact s) (map val xs))). 
      generalize (snd (f_filter prec emax (B0 s) (B1 s) (B2 s) (A1 s) (A2 s) (zero, zero) xs)). clear - HR.
      intros ys ms R1. induction R1 as [|y m ys ms [F [B E]] R1 IH]; intros ws R2; inversion R2 as [|? w ? ws' E2 R2']; subst; constructor.
      + split; [exact F|]. split; [exact B|]. replace (val y - w) with ((val y - m) + (m - w)) by ring. eapply Rle_trans; [apply Rabs_triang|].
        rewrite Rmult_plus_distr_l. apply Rplus_le_compat; [exact E|exact E2].
      + apply IH. exact R2'. }
  apply (G ss X 0 Y D H HX (Rle_refl 0)). clear -Hx. induction Hx as [|x xs [F B] Hx IH]; cbn; constructor; auto. rewrite Rminus_diag_eq, Rabs_R0 by reflexivity. repeat split; auto. lra.
Qed.
End Format.

(** A resonator in doubles with poles 1/2 + 3/4 i and its conjugate, twice in a row: whatever the input
    between -1 and 1, the outputs stay below 12000 and within 10^-8 of the exact ones. *)
Definition resonator : fsection 53 1024 := mkFs 53 1024 (dbl 1) (dbl 0) (dbl 0) (dbl (-1)) (ratio 13 16) (fzero 53 1024, fzero 53 1024).
Definition rpole : Cplx.C := (/ 2, 3 / 4).
Definition rconj : Cplx.C := (/ 2, - (3 / 4)).
Lemma sf_value (x : double) s m e : B2SF x = SpecFloat.S754_finite s m e -> is_finite x = true /\ B2R x = IZR (cond_Zopp s (Zpos m)) * bpow radix2 e.
Proof. destruct x as [s'|s'| |s' m' e' H]; intros E; try discriminate E. cbn in E. injection E as -> -> ->. split; reflexivity. Qed.
Lemma resonator_values : (is_finite (dbl 1) = true /\ B2R (dbl 1) = 1) /\ (is_finite (dbl 0) = true /\ B2R (dbl 0) = 0) /\
  (is_finite (dbl (-1)) = true /\ B2R (dbl (-1)) = -1) /\ (is_finite (ratio 13 16) = true /\ B2R (ratio 13 16) = 13 / 16).
Proof.
  split; [|split; [|split]].
  - destruct (sf_value (dbl 1) false 4503599627370496 (-52)) as [F V]; [vm_compute; reflexivity|]. split; [exact F|]. rewrite V. cbn. lra.
  - replace (dbl 0) with (B754_zero false : double); [split; reflexivity|]. apply B2SF_inj. vm_compute. reflexivity.
  - destruct (sf_value (dbl (-1)) true 4503599627370496 (-52)) as [F V]; [vm_compute; reflexivity|]. split; [exact F|]. rewrite V. cbn. lra.
  - destruct (sf_value (ratio 13 16) false 7318349394477056 (-53)) as [F V]; [vm_compute; reflexivity|]. split; [exact F|]. rewrite V. cbn. lra.
Qed.
Lemma rpole_mod : Cplx.Cmod rpole <= 9014 / 10000 /\ Cplx.Cmod rconj <= 9014 / 10000.
Proof.
  assert (Q : sqrt (13 / 16) <= 9014 / 10000). { rewrite <- (sqrt_Rsqr (9014 / 10000)) by lra. apply sqrt_le_1_alt. unfold Rsqr. lra. }
  unfold Cplx.Cmod, rpole, rconj, Cplx.Cnorm2. cbn [fst snd Cplx.Re Cplx.Im].
  split; eapply Rle_trans; try exact Q; apply sqrt_le_1_alt; unfold Cplx.Re, Cplx.Im; cbn [fst snd]; lra.
Qed.
Lemma resonator_stable : stable_section 53 1024 resonator rpole rconj.
Proof.
  destruct resonator_values as [[F1 V1] [[F0 V0] [[Fm Vm] [Fr Vr]]]]. destruct rpole_mod as [M1 M2].
  unfold stable_section, resonator, finite. cbn [fb0 fb1 fb2 fa1 fa2 fstate]. rewrite Vm, Vr. repeat (split; [assumption || reflexivity|]).
  split; [|split; lra]. intros [zx zy]. apply injective_projections; cbn; field.
Qed.
Example C124_example : exists D, budget 53 1024 [resonator; resonator] 1 0 12000 D /\ D <= / 10 ^ 8.
Proof.
  destruct resonator_values as [[F1 V1] [[F0 V0] [[Fm Vm] [Fr Vr]]]]. destruct rpole_mod as [M1 M2]. pose proof resonator_stable as S.
  assert (N1 : 0 <= Cplx.Cmod rpole) by apply sqrt_pos. assert (N2 : 0 <= Cplx.Cmod rconj) by apply sqrt_pos.
  assert (HF : feed 53 1024 resonator = 1). { unfold feed, resonator. cbn [fb0 fb1 fb2]. rewrite V1, V0, Rabs_R0, Rabs_R1. lra. }
  assert (HB : back 53 1024 resonator = 29 / 16). { unfold back, resonator. cbn [fa1 fa2]. rewrite Vm, Vr. rewrite (Rabs_left (-1)), (Rabs_right (13 / 16)) by lra. lra. }
  assert (HR : 0 < recursion rpole rconj <= 103).
  { unfold recursion. set (a := Cplx.Cmod rpole) in *. set (b := Cplx.Cmod rconj) in *. assert (K : 986 / 10000 * (986 / 10000) <= (1 - a) * (1 - b)) by (apply Rmult_le_compat; lra).
    split; [apply Rinv_0_lt_compat; lra|]. apply Rle_trans with (/ (986 / 10000 * (986 / 10000))); [apply Rinv_le_contravar; lra|lra]. }
  assert (U : roundoff 53 = / 9007199254740992) by (unfold roundoff; reflexivity).
  assert (T : 0 < smallest 53 1024 <= / 9007199254740992 ^ 2).
  { unfold smallest. change (1024 + 53 - 3)%Z with 1074%Z. split; [apply Rinv_0_lt_compat; apply IZR_lt; reflexivity|]. apply Rinv_le_contravar; [lra|].
    replace (9007199254740992 ^ 2) with (IZR (2 ^ 106)) by (change (2 ^ 106)%Z with (9007199254740992 * 9007199254740992)%Z; rewrite mult_IZR; cbn [pow]; ring). apply IZR_le. vm_compute. discriminate. }
  assert (E1 : 0 <= step_error 53 1024 resonator 1 110 <= / 10 ^ 13).
  { unfold step_error. rewrite HF, HB, U. set (t := smallest 53 1024) in *. clearbody t. cbn [pow] in *. split; lra. }
  assert (E2 : 0 <= step_error 53 1024 resonator 110 12000 <= / 10 ^ 11).
  { unfold step_error. rewrite HF, HB, U. set (t := smallest 53 1024) in *. clearbody t. cbn [pow] in *. split; lra. }
  assert (BIG : 100000 < IZR (2 ^ 1024)) by (apply IZR_lt; reflexivity).
  set (h := recursion rpole rconj) in *. set (x1 := step_error 53 1024 resonator 1 110) in *. set (x2 := step_error 53 1024 resonator 110 12000) in *.
  exists (h * (x2 + feed 53 1024 resonator * (h * (x1 + feed 53 1024 resonator * 0)))). split.
  - apply budget_cons with (p := rpole) (r := rconj) (Y := 110); auto; fold h x1; try lra.
    + rewrite HF. cbn [pow] in E1. nra.
    + apply budget_cons with (p := rpole) (r := rconj) (Y := 12000); auto; fold h x2; try lra.
      * rewrite HF. cbn [pow] in E2. nra.
      * constructor.
  - rewrite HF. cbn [pow] in *. assert (0 <= h * (x1 + 1 * 0) <= 103 * x1) by (split; [apply Rmult_le_pos; lra|]; rewrite Rmult_0_r, Rplus_0_r; apply Rmult_le_compat_r; lra).
    apply Rle_trans with (103 * (x2 + 1 * (103 * x1))); [apply Rmult_le_compat; lra|]. lra.
Qed.
Print Assumptions C124_cascade.
