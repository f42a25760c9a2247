(** Theorems C49, C50, C59, C60, C75, C76: envelopes, mu-law, coloured noise. *)
From Verif Require Import RealBase RealBaseProofs BaseProofs AlgModel AlgSpec AlgProofs FeatModel ExpModel.
Local Open Scope R_scope.
Local Open Scope res_scope.

Lemma INR_unbounded x : exists n, x < INR n.
Proof. exists (Z.to_nat (up x)). destruct (archimed x) as [A _]. destruct (Z_lt_le_dec (up x) 0) as [L|L]. - apply Rlt_le_trans with 0; [apply Rlt_trans with (IZR (up x)); auto; apply IZR_lt; auto|apply pos_INR]. - rewrite INR_IZR_INZ, Z2Nat.id by auto. lra. Qed.
(** * ADSR *)
(** Levels at most one, non-negative rates, positive times and sample rates. *)
Definition legal_op (c : adsr_op) : Prop :=
  match c with
  | SetAttackTarget t => 0 <= t <= 1
  | SetTarget t => t <= 1
  | SetSustainLevel s => 0 <= s <= 1
  | SetAttackRate r | SetDecayRate r | SetReleaseRate r => 0 <= r
  | SetAttackTime t | SetDecayTime t | SetReleaseTime t | SetSampleRate t => 0 < t
  | KeyOn | KeyOff | Sample _ => True
  end.
Record inv (a : adsr) : Prop := mkInv {
  i_sr : 0 < srate a; i_t : 0 <= target a <= 1; i_v : 0 <= value a <= 1; i_s : 0 <= sustain_level a <= 1;
  i_a : 0 <= attack_rate a; i_d : 0 <= decay_rate a; i_r : 0 <= release_rate a; i_idle : state a = idle -> value a = 0 }.
Lemma inv_new : inv adsr_new. Proof. constructor; cbn; auto; lra. Qed.
Lemma floor_target_range t : t <= 1 -> 0 < floor_target t <= 1.
Proof.
  intros H. unfold floor_target. assert (0 < / 10 ^ 9 < 1). { split; [apply Rinv_0_lt_compat; lra|]. rewrite <- Rinv_1. apply Rinv_lt_contravar; lra. }
  destruct (Rlt_dec (/ 10 ^ 9) t); lra.
Qed.
Lemma div_nonneg x y : 0 <= x -> 0 < y -> exists q, rdiv x y = Ok q /\ 0 <= q.
Proof. intros. exists (x / y). rewrite rdiv_ok by lra. split; auto. apply Rmult_le_pos; auto. left. apply Rinv_0_lt_compat; auto. Qed.
Lemma inv_tick a : inv a -> inv (adsr_tick a).
Proof.
  intros [A T V S RA RD RR I]. unfold adsr_tick. destruct (state a) eqn:E; [constructor; auto| | |constructor; auto; congruence|].
  - destruct (Rle_dec (target a) (value a + attack_rate a)); constructor; cbn; auto; try discriminate; lra.
  - destruct (Rlt_dec (sustain_level a) (value a)).
    + destruct (Rle_dec (value a - decay_rate a) (sustain_level a)); constructor; cbn; auto; try discriminate; lra.
    + destruct (Rle_dec (sustain_level a) (value a + decay_rate a)); constructor; cbn; auto; try discriminate; lra.
  - destruct (Rle_dec (value a - release_rate a) 0); constructor; cbn; auto; try discriminate; lra.
Qed.
Lemma inv_step a c : inv a -> legal_op c -> exists b o, adsr_step a c = Ok (b, o) /\ inv b /\
  (match c with Sample x => o = Some (value b * x) | _ => o = None end).
Proof.
  intros Ia L. assert (Ia' := Ia). destruct Ia as [A T V S RA RD RR I].
  destruct c; cbn [adsr_step legal_op] in *.
  - eexists. eexists. split; [reflexivity|]. split; auto. constructor; cbn; auto; try discriminate. destruct (Rle_dec (target a) 0); lra.
  - unfold key_off. destruct (Rlt_dec 0 (release_time a)).
    + destruct (div_nonneg (value a) (release_time a * srate a)) as [q [-> Q]]; [lra|nra|]. cbn [bind]. eexists. eexists. split; [reflexivity|]. split; auto. constructor; cbn; auto; try discriminate; lra.
    + cbn [bind]. eexists. eexists. split; [reflexivity|]. split; auto. constructor; cbn; auto; try discriminate; lra.
  - unfold set_attack_target, expects_nonneg. destruct (Rle_dec 0 t); [|lra]. cbn [bind]. eexists. eexists. split; [reflexivity|]. split; auto. pose proof (floor_target_range t). constructor; cbn; auto; lra.
  - unfold set_attack_rate, expects_nonneg. destruct (Rle_dec 0 r); [|lra]. cbn [bind]. eexists. eexists. split; [reflexivity|]. split; auto. constructor; cbn; auto.
  - unfold set_decay_rate, expects_nonneg. destruct (Rle_dec 0 r); [|lra]. cbn [bind]. eexists. eexists. split; [reflexivity|]. split; auto. constructor; cbn; auto.
  - unfold set_sustain_level, expects_nonneg. destruct (Rle_dec 0 s); [|lra]. cbn [bind]. eexists. eexists. split; [reflexivity|]. split; auto. constructor; cbn; auto.
  - unfold set_release_rate, expects_nonneg. destruct (Rle_dec 0 r); [|lra]. cbn [bind]. eexists. eexists. split; [reflexivity|]. split; auto. constructor; cbn; auto.
  - unfold set_attack_time, expects_pos. destruct (Rlt_dec 0 t); [|lra]. destruct (div_nonneg 1 (t * srate a)) as [q [-> Q]]; [lra|nra|]. cbn [bind]. eexists. eexists. split; [reflexivity|]. split; auto. constructor; cbn; auto.
  - unfold set_decay_time, expects_pos. destruct (Rlt_dec 0 t); [|lra]. destruct (div_nonneg (1 - sustain_level a) (t * srate a)) as [q [-> Q]]; [lra|nra|]. cbn [bind]. eexists. eexists. split; [reflexivity|]. split; auto. constructor; cbn; auto.
  - unfold set_release_time, expects_pos. destruct (Rlt_dec 0 t); [|lra]. destruct (div_nonneg (sustain_level a) (t * srate a)) as [q [-> Q]]; [lra|nra|]. cbn [bind]. eexists. eexists. split; [reflexivity|]. split; auto. constructor; cbn; auto.
  - unfold set_target, set_sustain_level, expects_nonneg. pose proof (floor_target_range t L). destruct (Rle_dec 0 (floor_target t)); [|lra]. cbn [bind value state srate target attack_rate decay_rate release_rate release_time sustain_level].
    eexists. eexists. split; [reflexivity|]. split; auto. constructor; cbn; auto; try lra. destruct (Rlt_dec (value a) (floor_target t)); [discriminate|]. destruct (Rlt_dec (floor_target t) (value a)); [discriminate|]. auto.
  - unfold adsr_set_sample_rate. destruct (div_nonneg (srate a * attack_rate a) sr) as [q [-> Q]]; [nra|lra|]. destruct (div_nonneg (srate a * decay_rate a) sr) as [q2 [-> Q2]]; [nra|lra|]. destruct (div_nonneg (srate a * release_rate a) sr) as [q3 [-> Q3]]; [nra|lra|].
    cbn [bind]. eexists. eexists. split; [reflexivity|]. split; auto. constructor; cbn; auto.
  - eexists. eexists. split; [reflexivity|]. split; auto. apply inv_tick; auto.
Qed.
Lemma inv_run a h : inv a -> Forall legal_op h -> exists b out, adsr_run a h = Ok (b, out) /\ inv b /\
  forall x y, In (x, y) out -> exists v, 0 <= v <= 1 /\ y = v * x.
Proof.
  intros Ia F. revert a Ia. induction F as [|c h L F IH]; intros a Ia; cbn [adsr_run].
  - exists a, []. repeat split; auto; try apply Ia. intros x y [].
  - destruct (inv_step a c Ia L) as [b [o [-> [Ib O]]]]. cbn [bind fst snd]. destruct (IH b Ib) as [b' [out [-> [Ib' G]]]]. cbn [bind fst snd].
    eexists. eexists. split; [reflexivity|]. split; auto. destruct c; subst o; auto. intros x y [Q|Q]; [|auto]. injection Q as <- <-. exists (value b). split; auto. apply Ib.
Qed.
Definition samples_of (h : list adsr_op) : list R := flat_map (fun c => match c with Sample x => [x] | _ => [] end) h.
(** Every legal history runs without error; each sample request answers its input times a level in [0,1]. *)
Theorem C49_range h : Forall legal_op h -> exists a out, adsr_run adsr_new h = Ok (a, out) /\ map fst out = samples_of h /\
  (forall x y, In (x, y) out -> exists v, 0 <= v <= 1 /\ y = v * x) /\ (forall y, In (1, y) out -> 0 <= y <= 1).
Proof.
  intros F. destruct (inv_run adsr_new h inv_new F) as [a [out [E [_ G]]]]. exists a, out. split; auto. split; [|split; auto].
  - clear G. revert a out E. generalize adsr_new. induction F as [|c h L F IH]; intros a0 a out E; cbn [adsr_run samples_of flat_map] in *.
    + injection E as <- <-. reflexivity.
    + destruct (adsr_step a0 c) as [[b o]| |] eqn:S; try discriminate. cbn [bind fst snd] in E. destruct (adsr_run b h) as [[b' out']| |] eqn:R; try discriminate. cbn [bind fst snd] in E. injection E as <- <-. specialize (IH _ _ _ R).
      destruct c; cbn [app]; auto. cbn [adsr_step] in S. injection S as <- <-. cbn [map fst]. f_equal. exact IH.
  - intros y I. destruct (G _ _ I) as [v [V ->]]. lra.
Qed.
Lemma run_app a h1 h2 : adsr_run a (h1 ++ h2) = (p <- adsr_run a h1 ;; q <- adsr_run (fst p) h2 ;; Ok (fst q, snd p ++ snd q)).
Proof.
  revert a. induction h1 as [|c h1 IH]; intros a; cbn [app adsr_run bind fst snd].
  - destruct (adsr_run a h2) as [[b o]| |]; reflexivity.
  - destruct (adsr_step a c) as [[b o]| |]; auto. cbn [bind fst snd]. rewrite IH. destruct (adsr_run b h1) as [[b' o']| |]; auto. cbn [bind fst snd]. destruct (adsr_run b' h2) as [[b'' o'']| |]; auto. cbn [bind fst snd]. destruct c, o; reflexivity.
Qed.

(** ** Release *)
(** The level [k] samples into the release, from level [v] with rate [r]. *)
Definition released (v r : R) (k : nat) : R := Rmax 0 (v - INR k * r).
Definition settled (a : adsr) : Prop := (state a = release /\ 0 < value a) \/ (state a = idle /\ value a = 0).
Lemma release_run xs : forall a, state a = release \/ settled a -> 0 <= value a -> 0 <= release_rate a ->
  exists b, adsr_run a (map Sample xs) = Ok (b, map (fun p => (snd p, released (value a) (release_rate a) (fst p) * snd p)) (combine (seq 1 (length xs)) xs)) /\
    (settled a \/ xs <> [] -> settled b) /\ value b = released (value a) (release_rate a) (length xs).
Proof.
  induction xs as [|x xs IH]; intros a Hs Hv Hr.
  - exists a. cbn. split; [reflexivity|]. split; [intros [?|N]; [auto|congruence]|]. unfold released. rewrite Rmult_0_l, Rminus_0_r, Rmax_right; auto.
  - cbn [map adsr_run adsr_step bind fst snd].
    assert (B : exists b, adsr_tick a = b /\ settled b /\ release_rate b = release_rate a /\ value b = Rmax 0 (value a - release_rate a)).
    { eexists. split; [reflexivity|]. unfold adsr_tick. assert (Hs' : state a = release \/ (state a = idle /\ value a = 0)) by (destruct Hs as [?|[[? ?]|?]]; auto). destruct Hs' as [E|[E Hz]]; rewrite E.
      - destruct (Rle_dec (value a - release_rate a) 0); unfold settled; cbn; (split; [|split; auto]); [right; auto|rewrite Rmax_left; lra|left; split; [auto|lra]|rewrite Rmax_right; lra].
      - split; [right; auto|]. split; auto. rewrite Hz. rewrite Rmax_left; lra. }
    destruct B as [b [-> [B1 [B2 B3]]]].
    assert (Hb : 0 <= value b) by (rewrite B3; apply Rmax_l).
    assert (Hrb : 0 <= release_rate b) by (rewrite B2; auto).
    destruct (IH b (or_intror B1) Hb Hrb) as [c [-> [C1 C3]]]. cbn [bind fst snd]. exists c.
    assert (R : forall k, released (value b) (release_rate b) k = released (value a) (release_rate a) (S k)).
    { intros k. unfold released. rewrite B2, B3, S_INR. pose proof (pos_INR k). unfold Rmax.
      assert (0 <= INR k * release_rate a) by nra. destruct (Rle_dec 0 (value a - release_rate a)); repeat match goal with |- context [Rle_dec ?x ?y] => destruct (Rle_dec x y) end; nra. }
    split; [|split].
    + f_equal. f_equal. cbn [length seq combine map fst snd]. f_equal.
      * f_equal. f_equal. rewrite B3. unfold released. simpl. f_equal. ring.
      * rewrite <- (seq_shift (length xs) 1). clear -R. generalize (seq 1 (length xs)). induction xs as [|y ys IH]; intros [|k l]; auto. cbn [map combine fst snd]. rewrite IH. f_equal. f_equal. f_equal. apply R.
    + intros _. apply C1. auto.
    + rewrite C3. apply R.
Qed.
(** The rate in force after key_off. *)
Definition release_step (a : adsr) : R := if Rlt_dec 0 (release_time a) then value a / (release_time a * srate a) else release_rate a.
Lemma key_off_run a xs : inv a -> exists b,
  adsr_run a (KeyOff :: map Sample xs) = Ok (b, map (fun p => (snd p, released (value a) (release_step a) (fst p) * snd p)) (combine (seq 1 (length xs)) xs)) /\
  value b = released (value a) (release_step a) (length xs) /\ (xs <> [] -> state b = idle <-> value b = 0).
Proof.
  intros I. destruct (inv_step a KeyOff I Logic.I) as [b [o [E [Ib O]]]]. cbn [adsr_run]. rewrite E. cbn [bind fst snd].
  assert (F : state b = release /\ value b = value a /\ release_rate b = release_step a).
  { cbn [adsr_step] in E. unfold key_off, release_step in *. destruct (Rlt_dec 0 (release_time a)).
    - rewrite rdiv_ok in E by (destruct I; nra). cbn [bind] in E. injection E as <- _. auto.
    - cbn [bind] in E. injection E as <- _. auto. }
  destruct F as [F1 [F2 F3]]. destruct (release_run xs b (or_introl F1) (proj1 (i_v _ Ib)) (i_r _ Ib)) as [c [-> [C1 C2]]]. cbn [bind fst snd]. rewrite F2, F3 in *. exists c. subst o.
  split; [reflexivity|]. split; auto. intros N. destruct (C1 (or_intror N)) as [[A B]|[A B]]; split; intros; auto; [congruence|lra].
Qed.
Lemma released_range v r k : 0 <= v -> 0 <= r -> 0 <= released v r k <= v.
Proof. intros. unfold released. pose proof (pos_INR k). split; [apply Rmax_l|apply Rmax_lub; nra]. Qed.
Lemma released_decr v r j k : 0 <= r -> (j <= k)%nat -> released v r k <= released v r j.
Proof. intros H L. apply le_INR in L. unfold released. apply Rle_max_compat_l. nra. Qed.
Lemma released_zero v r n : 0 <= r -> v <= INR n * r -> forall k, (n <= k)%nat -> released v r k = 0.
Proof. intros H L k K. apply le_INR in K. unfold released. apply Rmax_left. nra. Qed.

(** From every reachable state, key_off followed by samples only: the [k]-th answer is its input times
    max(0, v - k r), with [v] the level at key_off; the levels never increase and the envelope is idle
    exactly when the level is 0. *)
Theorem C49_release h a out xs : Forall legal_op h -> adsr_run adsr_new h = Ok (a, out) -> exists b levels,
  adsr_run a (KeyOff :: map Sample xs) = Ok (b, map (fun p => (snd p, fst p * snd p)) (combine levels xs)) /\
  levels = map (fun k => Rmax 0 (value a - INR k * release_step a)) (seq 1 (length xs)) /\
  (forall i j x y, (i <= j)%nat -> nth_error levels i = Some x -> nth_error levels j = Some y -> 0 <= y <= x /\ x <= value a) /\
  (xs <> [] -> state b = idle <-> value b = 0).
Proof.
  intros F E. destruct (inv_run adsr_new h inv_new F) as [a' [out' [E' [I _]]]]. rewrite E in E'. injection E' as <- <-.
  destruct (key_off_run a xs I) as [b [R [V St]]]. exists b, (map (released (value a) (release_step a)) (seq 1 (length xs))). split; [|split; [reflexivity|split; [|auto]]].
  - rewrite R. f_equal. f_equal. clear. generalize (seq 1 (length xs)). induction xs as [|x xs IH]; intros [|k l]; auto. cbn [map combine fst snd]. f_equal. apply IH.
  - intros i j x y L X Y. assert (P : 0 <= release_step a). { unfold release_step. destruct I as [A T Vv Ss RA RD RR _]. destruct (Rlt_dec 0 (release_time a)); auto. apply Rmult_le_pos; [lra|]. left. apply Rinv_0_lt_compat. nra. }
    rewrite nth_error_map in X, Y. destruct (nth_error (seq 1 (length xs)) i) as [i'|] eqn:I1; [|discriminate]. destruct (nth_error (seq 1 (length xs)) j) as [j'|] eqn:J1; [|discriminate].
    assert (Q : forall m i z, nth_error (seq 1 m) i = Some z -> z = S i). { clear. intros m i z J. assert (i < m)%nat by (rewrite <- (seq_length m 1); apply nth_error_Some; congruence). rewrite (nth_error_nth' _ 0%nat), seq_nth in J by (rewrite ?seq_length; auto). injection J as <-. reflexivity. }
    apply Q in I1, J1. subst i' j'. cbn [option_map] in X, Y. injection X as <-. injection Y as <-. pose proof (i_v _ I). pose proof (released_range (value a) (release_step a) (S j) ltac:(lra) P). pose proof (released_range (value a) (release_step a) (S i) ltac:(lra) P).
    pose proof (released_decr (value a) (release_step a) (S i) (S j) P ltac:(lia)). lra.
Qed.
(** With a positive release rate or a release time the envelope becomes idle, and with a release time
    [t] it does so within t * sample_rate samples, rounded up. *)
Theorem C49_release_ends h a out : Forall legal_op h -> adsr_run adsr_new h = Ok (a, out) -> 0 < release_rate a \/ 0 < release_time a ->
  exists n, forall xs, (n <= length xs)%nat -> exists b o, adsr_run a (KeyOff :: map Sample xs) = Ok (b, o) /\ state b = idle /\ value b = 0 /\
    (forall k x y, (n <= S k)%nat -> nth_error o k = Some (x, y) -> y = 0).
Proof.
  intros F E P. destruct (inv_run adsr_new h inv_new F) as [a' [out' [E' [I _]]]]. rewrite E in E'. injection E' as <- <-.
  assert (G : exists n, (1 <= n)%nat /\ value a <= INR n * release_step a).
  { pose proof (i_v _ I). pose proof (i_sr _ I). unfold release_step. destruct (Rlt_dec 0 (release_time a)) as [Q|Q].
    - destruct (INR_unbounded (release_time a * srate a)) as [n N]. assert (0 < release_time a * srate a) by nra. exists (S n). split; [lia|]. rewrite S_INR.
      apply Rmult_le_reg_r with (release_time a * srate a); auto. replace ((INR n + 1) * (value a / (release_time a * srate a)) * (release_time a * srate a)) with ((INR n + 1) * value a) by (field; split; nra). nra.
    - destruct P as [P|P]; [|lra]. destruct (INR_unbounded (value a / release_rate a)) as [n N]. exists (S n). split; [lia|]. rewrite S_INR.
      assert (value a = value a / release_rate a * release_rate a) by (field; lra). nra. }
  destruct G as [n [N1 N2]]. exists n. intros xs L. destruct (key_off_run a xs I) as [b [R [V St]]].
  assert (Pr : 0 <= release_step a). { unfold release_step. destruct I as [A T Vv Ss RA RD RR _]. destruct (Rlt_dec 0 (release_time a)); auto. apply Rmult_le_pos; [lra|]. left. apply Rinv_0_lt_compat. nra. }
  assert (Z : value b = 0) by (rewrite V; apply released_zero with n; auto). exists b. eexists. split; [exact R|]. split; [apply St; auto; intros ->; cbn in L; lia|]. split; auto.
  intros k x y K NE. rewrite nth_error_map in NE. destruct (nth_error (combine (seq 1 (length xs)) xs) k) as [[i z]|] eqn:C; [|discriminate]. cbn [option_map fst snd] in NE. injection NE as <- <-.
  assert (i = S k). { clear -C. assert (G : forall s k, nth_error (combine (seq s (length xs)) xs) k = Some (i, z) -> i = (s + k)%nat). { clear. induction xs as [|w xs IH]; intros s [|k]; cbn; try discriminate. - intros Q. injection Q as <- _. lia. - intros Q. apply IH in Q. lia. } apply G in C. exact C. }
  subst i. rewrite released_zero with (n := n); auto. ring.
Qed.
(** While idle the envelope answers 0, and only key_on or set_target leave the idle state. *)
Theorem C49_idle h a out c : Forall legal_op h -> adsr_run adsr_new h = Ok (a, out) -> state a = idle -> legal_op c ->
  exists b o, adsr_step a c = Ok (b, o) /\ match c with
    | Sample _ => o = Some 0 /\ state b = idle
    | KeyOn => state b = attack | SetTarget _ => state b = attack | KeyOff => state b = release /\ value b = 0
    | _ => state b = idle end.
Proof.
  intros F E S L. destruct (inv_run adsr_new h inv_new F) as [a' [out' [E' [I _]]]]. rewrite E in E'. injection E' as <- <-. pose proof (i_idle _ I S) as Z.
  destruct (inv_step a c I L) as [b [o [R [_ O]]]]. exists b, o. split; auto.
  destruct c; cbn [adsr_step legal_op] in *;
    try (unfold set_attack_target, set_attack_rate, set_decay_rate, set_sustain_level, set_release_rate, set_attack_time, set_decay_time, set_release_time, adsr_set_sample_rate, expects_nonneg, expects_pos in R;
         repeat match type of R with context [Rle_dec ?x ?y] => destruct (Rle_dec x y); [|discriminate] | context [Rlt_dec ?x ?y] => destruct (Rlt_dec x y); [|discriminate] end;
         repeat (rewrite rdiv_ok in R by (pose proof (i_sr _ I); nra)); cbn [bind] in R; injection R as <- _; cbn; auto; fail).
  - unfold key_off in R. destruct (if Rlt_dec 0 (release_time a) then rdiv (value a) (release_time a * srate a) else Ok (release_rate a)); try discriminate. cbn [bind] in R. injection R as <- _. auto.
  - unfold set_target, set_sustain_level, expects_nonneg in R. pose proof (floor_target_range t L). destruct (Rle_dec 0 (floor_target t)); [|lra]. cbn [bind value state srate target attack_rate decay_rate release_rate release_time sustain_level] in R.
    injection R as <- _. cbn. destruct (Rlt_dec (value a) (floor_target t)); [reflexivity|lra].
  - injection R as <- _. subst o. assert (A : adsr_tick a = a) by (unfold adsr_tick; rewrite S; reflexivity). rewrite A. split; auto. rewrite Z. f_equal. ring.
Qed.
(** A fresh envelope, after key on: up to full level in a thousand samples, down to one half in five
    hundred more, and there it stays for as long as the key is held. *)
Definition default_level (k : nat) : R := if (k <=? 1000)%nat then INR k / 1000 else Rmax (1/2) (1 - (INR k - 1000) / 1000).
Definition default_state (k : nat) : adsr :=
  mkAdsr (if (k <? 1000)%nat then attack else if (k <? 1500)%nat then decay else sustain) 44100
    (if (k <? 1000)%nat then 1 else 1/2) (default_level k) (1/1000) (1/1000) (1/1000) (-1) (1/2).
Lemma inr_const n z : Z.of_nat n = z -> INR n = IZR z.
Proof. intros <-. apply INR_IZR_INZ. Qed.
Lemma default_tick k : adsr_tick (default_state k) = default_state (S k).
Proof.
  pose proof (inr_const 1000 1000 eq_refl) as C1. pose proof (inr_const 1500 1500 eq_refl) as C2. pose proof (inr_const 999 999 eq_refl) as C0. pose proof (inr_const 1499 1499 eq_refl) as C3.
  unfold default_state, adsr_tick, default_level, with_stv. cbn [state value target attack_rate decay_rate release_rate sustain_level srate release_time]. rewrite S_INR.
  set (L := 1500%nat) in *. set (L' := 1499%nat) in *. set (K := 1000%nat) in *. set (K' := 999%nat) in *.
  assert (KL : (K = S K' /\ L = S L' /\ K < L')%nat) by (split; [reflexivity|split; [reflexivity|]]; apply Nat.ltb_lt; reflexivity). clearbody K L K' L'.
  destruct (Nat.ltb_spec k K) as [A|A].
  - assert (INR k <= 999) by (rewrite <- C0; apply le_INR; lia). destruct (Nat.leb_spec k K); [|lia]. destruct (Nat.ltb_spec (S k) K) as [B|B].
    + assert (INR (S k) <= 999) by (rewrite <- C0; apply le_INR; lia). rewrite S_INR in *. destruct (Nat.leb_spec (S k) K); [|lia].
      destruct (Rle_dec 1 (INR k / 1000 + 1 / 1000)); [lra|]. f_equal. lra.
    + assert (E : k = K') by lia. destruct (Nat.leb_spec (S k) K); [|lia]. destruct (Nat.ltb_spec (S k) L); [|lia]. subst k. rewrite C0.
      destruct (Rle_dec 1 (999 / 1000 + 1 / 1000)); [|lra]. f_equal. lra.
  - assert (1000 <= INR k) by (rewrite <- C1; apply le_INR; lia). destruct (Nat.ltb_spec (S k) K); [lia|]. destruct (Nat.leb_spec (S k) K); [lia|].
    assert (V : (if (k <=? K)%nat then INR k / 1000 else Rmax (1 / 2) (1 - (INR k - 1000) / 1000)) = Rmax (1 / 2) (1 - (INR k - 1000) / 1000)).
    { destruct (Nat.leb_spec k K); [|reflexivity]. assert (k = K) by lia. subst k. rewrite C1, Rmax_right; lra. }
    rewrite V. destruct (Nat.ltb_spec k L) as [B|B].
    + assert (INR k <= 1499) by (rewrite <- C3; apply le_INR; lia). rewrite (Rmax_right _ (1 - (INR k - 1000) / 1000)) by lra. destruct (Rlt_dec (1 / 2) (1 - (INR k - 1000) / 1000)); [|lra].
      destruct (Nat.ltb_spec (S k) L) as [D|D].
      * assert (INR (S k) <= 1499) by (rewrite <- C3; apply le_INR; lia). rewrite S_INR in *. destruct (Rle_dec (1 - (INR k - 1000) / 1000 - 1 / 1000) (1 / 2)); [lra|]. f_equal. rewrite Rmax_right; lra.
      * assert (E : k = L') by lia. subst k. rewrite C3. destruct (Rle_dec (1 - (1499 - 1000) / 1000 - 1 / 1000) (1 / 2)); [|lra]. f_equal. rewrite Rmax_left; lra.
    + assert (1500 <= INR k) by (rewrite <- C2; apply le_INR; lia). destruct (Nat.ltb_spec (S k) L); [lia|]. f_equal. rewrite !Rmax_left; lra.
Qed.
Theorem C49_default_envelope xs : exists b,
  adsr_run adsr_new (KeyOn :: map Sample xs) = Ok (b, map (fun p => (snd p, fst p * snd p)) (combine (map default_level (seq 1 (length xs))) xs)).
Proof.
  cbn [adsr_run adsr_step bind fst snd].
  assert (E : key_on adsr_new = default_state 0).
  { unfold key_on, adsr_new, default_state, default_level. cbn [state value target attack_rate decay_rate release_rate sustain_level srate release_time Nat.ltb Nat.leb INR]. destruct (Rle_dec 0 0); [|lra]. f_equal. field. }
  rewrite E. clear E. set (c := 0%nat) at 1. change (seq 1 (length xs)) with (seq (S c) (length xs)). clearbody c.
  assert (G : exists b, adsr_run (default_state c) (map Sample xs) = Ok (b, map (fun p => (snd p, fst p * snd p)) (combine (map default_level (seq (S c) (length xs))) xs))).
  { revert c. induction xs as [|x xs IH]; intros c; [eexists; reflexivity|]. destruct (IH (S c)) as [b B]. cbn [map adsr_run adsr_step bind fst snd length seq combine].
    rewrite default_tick, B. cbn [bind fst snd]. exists b. reflexivity. }
  destruct G as [b G]. rewrite G. cbn [bind fst snd]. exists b. reflexivity.
Qed.
(** VIOLATION: set_release_time during the release recomputes the rate from the sustain level; with a
    sustain level of 0 the envelope then never ends. *)
Theorem C49_release_time_stuck_refuted t xs : 0 < t ->
  exists b, adsr_run adsr_new (SetSustainLevel 0 :: KeyOn :: Sample 1 :: KeyOff :: SetReleaseTime t :: map Sample xs) =
    Ok (b, (1, 1/1000) :: map (fun x => (x, 1/1000 * x)) xs) /\ state b = release.
Proof.
  intros T.
  assert (S1 : adsr_step adsr_new (SetSustainLevel 0) = Ok (mkAdsr idle 44100 0 0 (1/1000) (1/1000) (1/1000) (-1) 0, None)).
  { cbn [adsr_step]. unfold set_sustain_level, expects_nonneg. destruct (Rle_dec 0 0); [reflexivity|lra]. }
  set (a1 := mkAdsr idle _ _ _ _ _ _ _ _) in S1.
  assert (S2 : adsr_step a1 KeyOn = Ok (mkAdsr attack 44100 1 0 (1/1000) (1/1000) (1/1000) (-1) 0, None)).
  { cbn [adsr_step]. unfold key_on, a1. cbn. destruct (Rle_dec 0 0); [reflexivity|lra]. }
  set (a2 := mkAdsr attack _ _ _ _ _ _ _ _) in S2.
  assert (S3 : adsr_step a2 (Sample 1) = Ok (mkAdsr attack 44100 1 (1/1000) (1/1000) (1/1000) (1/1000) (-1) 0, Some (1/1000))).
  { cbn [adsr_step]. unfold adsr_tick, a2. cbn. destruct (Rle_dec 1 (0 + 1/1000)); [lra|]. unfold with_stv. cbn. rewrite Rplus_0_l, Rmult_1_r. reflexivity. }
  set (a3 := mkAdsr attack _ _ _ _ _ _ _ _) in S3.
  assert (S4 : adsr_step a3 KeyOff = Ok (mkAdsr release 44100 0 (1/1000) (1/1000) (1/1000) (1/1000) (-1) 0, None)).
  { cbn [adsr_step]. unfold key_off, a3. cbn. destruct (Rlt_dec 0 (-1)); [lra|reflexivity]. }
  set (a4 := mkAdsr release _ _ _ _ _ _ _ _) in S4.
  assert (S5 : adsr_step a4 (SetReleaseTime t) = Ok (mkAdsr release 44100 0 (1/1000) (1/1000) (1/1000) (0 / (t * 44100)) t 0, None)).
  { cbn [adsr_step]. unfold set_release_time, expects_pos, a4. cbn. destruct (Rlt_dec 0 t); [|lra]. rewrite rdiv_ok by lra. reflexivity. }
  set (a := mkAdsr release _ _ _ _ _ _ _ _) in S5.
  cbn [adsr_run]. rewrite S1. cbn [bind fst snd]. rewrite S2. cbn [bind fst snd]. rewrite S3. cbn [bind fst snd]. rewrite S4. cbn [bind fst snd]. rewrite S5. cbn [bind fst snd].
  assert (V : value a = 1/1000) by reflexivity. assert (RR : release_rate a = 0) by (unfold a; cbn; unfold Rdiv; ring).
  assert (ST : settled a) by (left; split; [reflexivity|lra]). clearbody a.
  destruct (release_run xs a (or_intror ST)) as [b [-> [C1 C2]]]; [lra|lra|]. cbn [bind fst snd]. exists b. rewrite RR, V in *.
  assert (RL : forall k, released (1/1000) 0 k = 1/1000) by (intros; unfold released; rewrite Rmult_0_r, Rminus_0_r, Rmax_right; lra).
  split.
  - f_equal. f_equal. f_equal. clear -RL. generalize 1%nat. induction xs as [|x xs IH]; intros s; auto. cbn [length seq combine map fst snd]. rewrite RL. f_equal. apply IH.
  - rewrite RL in C2. destruct (C1 (or_introl ST)) as [[A _]|[_ A]]; auto. lra.
Qed.
Example C49_ex : exists a out, adsr_run adsr_new [SetAttackRate (1/2); KeyOn; Sample 1; Sample 1] = Ok (a, out) /\ value a = 1 /\ state a = decay /\ 0 < release_rate a.
Proof.
  assert (S1 : adsr_step adsr_new (SetAttackRate (1/2)) = Ok (mkAdsr idle 44100 0 0 (1/2) (1/1000) (1/1000) (-1) (1/2), None)).
  { cbn [adsr_step]. unfold set_attack_rate, expects_nonneg. destruct (Rle_dec 0 (1/2)); [reflexivity|lra]. }
  set (a1 := mkAdsr idle _ _ _ _ _ _ _ _) in S1.
  assert (S2 : adsr_step a1 KeyOn = Ok (mkAdsr attack 44100 1 0 (1/2) (1/1000) (1/1000) (-1) (1/2), None)).
  { cbn [adsr_step]. unfold key_on, a1. cbn. destruct (Rle_dec 0 0); [reflexivity|lra]. }
  set (a2 := mkAdsr attack _ _ _ _ _ _ _ _) in S2.
  assert (S3 : exists o, adsr_step a2 (Sample 1) = Ok (mkAdsr attack 44100 1 (0 + 1/2) (1/2) (1/1000) (1/1000) (-1) (1/2), o)).
  { eexists. cbn [adsr_step]. unfold adsr_tick, a2. cbn. destruct (Rle_dec 1 (0 + 1/2)); [lra|]. reflexivity. }
  destruct S3 as [o3 S3]. set (a3 := mkAdsr attack _ _ _ _ _ _ _ _) in S3.
  assert (S4 : exists o, adsr_step a3 (Sample 1) = Ok (mkAdsr decay 44100 (1/2) 1 (1/2) (1/1000) (1/1000) (-1) (1/2), o)).
  { eexists. cbn [adsr_step]. unfold adsr_tick, a3. cbn. destruct (Rle_dec 1 (0 + 1/2 + 1/2)); [|lra]. reflexivity. }
  destruct S4 as [o4 S4]. cbn [adsr_run]. rewrite S1. cbn [bind fst snd]. rewrite S2. cbn [bind fst snd]. rewrite S3. cbn [bind fst snd]. rewrite S4. cbn [bind fst snd].
  eexists. eexists. split; [reflexivity|]. cbn. repeat split; lra.
Qed.

(** ** Attack *)
(** [n] samples of an attack that does not complete. *)
Lemma attack_run n : forall a, state a = attack -> value a + INR n * attack_rate a < target a -> 0 <= attack_rate a ->
  exists b out, adsr_run a (repeat (Sample 1) n) = Ok (b, out) /\ b = with_stv a attack (target a) (value a + INR n * attack_rate a).
Proof.
  induction n as [|n IH]; intros a Hs Hv Hr; cbn [repeat adsr_run].
  - exists a, []. split; auto. destruct a; cbn in *. subst. unfold with_stv; cbn. f_equal. ring.
  - cbn [adsr_step bind fst snd]. rewrite S_INR in Hv. unfold adsr_tick at 1. rewrite Hs. pose proof (pos_INR n). destruct (Rle_dec (target a) (value a + attack_rate a)); [nra|].
    destruct (IH (with_stv a attack (target a) (value a + attack_rate a))) as [b [out [E B]]]; [reflexivity|cbn; lra|auto|]. rewrite E. cbn [bind fst snd]. eexists. eexists. split; [reflexivity|]. rewrite B, S_INR. unfold with_stv. cbn. f_equal. ring.
Qed.
(** An attack at a positive rate reaches its target level exactly, whatever the level it starts from below it. *)
Theorem C75_attack_reaches_target a : inv a -> 0 < attack_rate a -> state a = attack -> value a < target a ->
  exists n b out, adsr_run a (repeat (Sample 1) n) = Ok (b, out ++ [(1, target a)]) /\ state b = decay.
Proof.
  intros I P S L. destruct (INR_unbounded ((target a - value a) / attack_rate a)) as [m M]. assert (Q : target a <= value a + INR m * attack_rate a).
  { assert ((target a - value a) / attack_rate a * attack_rate a = target a - value a) by (field; lra). nra. }
  assert (D : exists n, value a + INR n * attack_rate a < target a <= value a + INR (Datatypes.S n) * attack_rate a).
  { clear M. induction m as [|m IH]; [simpl in Q; lra|]. destruct (Rle_dec (target a) (value a + INR m * attack_rate a)); [auto|]. exists m. lra. }
  destruct D as [n [D1 D2]]. destruct (attack_run n a S D1) as [b [out [E B]]]; [lra|]. exists (n + 1)%nat. rewrite repeat_app, run_app, E. cbn [bind fst snd repeat adsr_run adsr_step]. rewrite S_INR in D2.
  rewrite B. unfold adsr_tick, with_stv. cbn. destruct (Rle_dec (target a) (value a + INR n * attack_rate a + attack_rate a)); [|lra]. cbn. eexists. exists out. split; [f_equal; f_equal; f_equal; f_equal; f_equal; ring|reflexivity].
Qed.
(** After the attack the level moves to the sustain level at the decay rate, from above or from below, and stays there. *)
Definition toward (s d v : R) (k : nat) : R := if Rle_dec s v then Rmax s (v - INR k * d) else Rmin s (v + INR k * d).
Lemma toward_S s d v k : 0 <= d -> toward s d (toward s d v 1) k = toward s d v (S k).
Proof.
  intros D. unfold toward. rewrite (S_INR k). change (INR 1) with 1. pose proof (pos_INR k) as K. assert (P : 0 <= INR k * d) by nra.
  rewrite Rmult_1_l. replace ((INR k + 1) * d) with (INR k * d + d) by ring. generalize dependent (INR k * d). intros q P. destruct (Rle_dec s v) as [L|L].
  - destruct (Rle_dec s (v - d)) as [M|M].
    + rewrite (Rmax_right s (v - d)) by auto. destruct (Rle_dec s (v - d)); [|lra]. f_equal. ring.
    + rewrite (Rmax_left s (v - d)) by lra. destruct (Rle_dec s s); [|lra]. rewrite !Rmax_left by lra. reflexivity.
  - destruct (Rle_dec s (v + d)) as [M|M].
    + rewrite (Rmin_left s (v + d)) by auto. destruct (Rle_dec s s); [|lra]. rewrite Rmax_left by lra. rewrite Rmin_left by lra. reflexivity.
    + rewrite (Rmin_right s (v + d)) by lra. destruct (Rle_dec s (v + d)); [lra|]. f_equal. ring.
Qed.
Theorem C75_decay a xs : 0 <= decay_rate a -> state a = decay -> exists b,
  adsr_run a (map Sample xs) = Ok (b, map (fun p => (snd p, toward (sustain_level a) (decay_rate a) (value a) (fst p) * snd p)) (combine (seq 1 (length xs)) xs)) /\
  (state b = decay \/ state b = sustain) /\ (state b = sustain -> value b = sustain_level a).
Proof.
  intros D St. assert (G : forall a, 0 <= decay_rate a -> state a = decay \/ (state a = sustain /\ value a = sustain_level a) -> exists b,
    adsr_run a (map Sample xs) = Ok (b, map (fun p => (snd p, toward (sustain_level a) (decay_rate a) (value a) (fst p) * snd p)) (combine (seq 1 (length xs)) xs)) /\
    (state b = decay \/ state b = sustain) /\ (state b = sustain -> value b = sustain_level a)); [|apply G; auto].
  clear a D St. induction xs as [|x xs IH]; intros a D St.
  - exists a. cbn. split; auto. destruct St as [E|[E V]]; rewrite E; split; auto. discriminate.
  - cbn [map adsr_run adsr_step bind fst snd].
    assert (B : exists b, adsr_tick a = b /\ (state b = decay \/ (state b = sustain /\ value b = sustain_level b)) /\ decay_rate b = decay_rate a /\ sustain_level b = sustain_level a /\ value b = toward (sustain_level a) (decay_rate a) (value a) 1).
    { eexists. split; [reflexivity|]. unfold adsr_tick, toward. simpl (INR 1). rewrite Rmult_1_l. destruct St as [E|[E V]]; rewrite E.
      - unfold Rmax, Rmin. destruct (Rlt_dec (sustain_level a) (value a)).
        + destruct (Rle_dec (value a - decay_rate a) (sustain_level a)); cbn; (split; [auto|split; [auto|split; [auto|]]]);
            repeat match goal with |- context [Rle_dec ?x ?y] => destruct (Rle_dec x y) end; lra.
        + destruct (Rle_dec (sustain_level a) (value a + decay_rate a)); cbn; (split; [auto|split; [auto|split; [auto|]]]);
            repeat match goal with |- context [Rle_dec ?x ?y] => destruct (Rle_dec x y) end; lra.
      - repeat split; auto. rewrite V. destruct (Rle_dec (sustain_level a) (sustain_level a)); [|lra]. rewrite Rmax_left; lra. }
    destruct B as [b [-> [B1 [B2 [B3 B4]]]]]. destruct (IH b ltac:(lra) B1) as [c [-> [C1 C2]]]. cbn [bind fst snd]. exists c. split; [|split; [auto|rewrite <- B3; auto]].
    f_equal. f_equal. cbn [length seq combine map fst snd]. f_equal; [f_equal; f_equal; exact B4|]. rewrite B2, B3, B4. rewrite <- (seq_shift (length xs) 1). clear -D.
    generalize (seq 1 (length xs)). induction xs as [|y ys IH]; intros [|k l]; auto. cbn [map combine fst snd]. rewrite IH. f_equal. f_equal. f_equal. apply toward_S. auto.
Qed.
(** VIOLATION: key_off overwrites the attack target, so the next note rises to 1 instead. *)
Theorem C75_attack_target_refuted h a out t : Forall legal_op h -> adsr_run adsr_new h = Ok (a, out) -> 0 < attack_rate a -> value a < 1 -> 0 <= t < 1 ->
  exists n b o, adsr_run a (SetAttackTarget t :: KeyOff :: KeyOn :: repeat (Sample 1) n) = Ok (b, o ++ [(1, 1)]) /\ state b = decay.
Proof.
  intros F E P V T. destruct (inv_run adsr_new h inv_new F) as [a' [out' [E' [I _]]]]. rewrite E in E'. injection E' as <- <-.
  destruct (inv_step a (SetAttackTarget t) I ltac:(cbn; lra)) as [a1 [o1 [S1 [I1 _]]]]. destruct (inv_step a1 KeyOff I1 Logic.I) as [a2 [o2 [S2 [I2 _]]]]. destruct (inv_step a2 KeyOn I2 Logic.I) as [a3 [o3 [S3 [I3 _]]]].
  assert (Q : target a3 = 1 /\ state a3 = attack /\ value a3 = value a /\ attack_rate a3 = attack_rate a).
  { cbn [adsr_step] in S1, S2, S3. unfold set_attack_target, expects_nonneg in S1. destruct (Rle_dec 0 t); [|lra]. cbn [bind] in S1. injection S1 as <- _. unfold key_off in S2.
    match type of S2 with context [if Rlt_dec ?x ?y then ?u else ?v] => destruct (if Rlt_dec x y then u else v) as [q| |] end; try discriminate. cbn [bind] in S2. injection S2 as <- _. injection S3 as <- _. cbn. destruct (Rle_dec 0 0); [auto|lra]. }
  destruct Q as [Q1 [Q2 [Q3 Q4]]]. destruct (C75_attack_reaches_target a3 I3) as [n [b [o [R B]]]]; try lra; auto. rewrite Q1 in R.
  exists n, b, o. split; auto. cbn [adsr_run]. rewrite S1. cbn [bind fst snd]. rewrite S2. cbn [bind fst snd]. rewrite S3. cbn [bind fst snd]. rewrite R. reflexivity.
Qed.

(** ** Times (C76) *)
Lemma sr_chain (f : adsr -> res R) a srs b out t : (forall a sr a', 0 < srate a -> 0 < sr -> adsr_set_sample_rate a sr = Ok a' -> f a = Ok t -> f a' = Ok t) ->
  0 < srate a -> Forall (fun s => 0 < s) srs -> f a = Ok t -> adsr_run a (map SetSampleRate srs) = Ok (b, out) -> f b = Ok t.
Proof.
  intros K Ha F. revert a out Ha. induction F as [|s srs Hs F IH]; intros a out Ha E R; cbn [map adsr_run adsr_step] in R; [injection R as <- _; auto|].
  destruct (adsr_set_sample_rate a s) as [a'| |] eqn:Q; try discriminate. cbn [bind fst snd] in R. destruct (adsr_run a' (map SetSampleRate srs)) as [[b' o']| |] eqn:R'; try discriminate. cbn [bind fst snd] in R. injection R as <- _.
  apply (IH a' o'); auto; [|apply (K a s); auto]. unfold adsr_set_sample_rate in Q. rewrite !rdiv_ok in Q by lra. injection Q as <-. auto.
Qed.
(** The configured times are reported back, also after any number of sample-rate changes. *)
Theorem C76_times h a o t srs : Forall legal_op h -> adsr_run adsr_new h = Ok (a, o) -> 0 < t -> Forall (fun s => 0 < s) srs ->
  (exists b out, adsr_run a (SetAttackTime t :: map SetSampleRate srs) = Ok (b, out) /\ get_attack_time b = Ok t) /\
  (sustain_level a < 1 -> exists b out, adsr_run a (SetDecayTime t :: map SetSampleRate srs) = Ok (b, out) /\ get_decay_time b = Ok t) /\
  (exists b out, adsr_run a (SetReleaseTime t :: map SetSampleRate srs) = Ok (b, out) /\ get_release_time b = t).
Proof.
  intros F E T FS. destruct (inv_run adsr_new h inv_new F) as [a' [out' [E' [I _]]]]. rewrite E in E'. injection E' as <- <-.
  assert (L : Forall legal_op (map SetSampleRate srs)) by (clear -FS; induction FS; constructor; auto).
  split; [|split].
  - destruct (inv_step a (SetAttackTime t) I T) as [a1 [o1 [S1 [I1 _]]]]. destruct (inv_run a1 _ I1 L) as [b [out [R [Ib _]]]]. exists b, out. cbn [adsr_run]. rewrite S1. cbn [bind fst snd]. rewrite R. cbn [bind fst snd]. split; auto.
    apply (sr_chain get_attack_time a1 srs b out t); auto; try apply I1.
    + clear. intros a sr a' H1 H2 Q G. unfold adsr_set_sample_rate in Q. rewrite !rdiv_ok in Q by lra. injection Q as <-. unfold get_attack_time in *. cbn. replace (srate a * attack_rate a / sr * sr) with (attack_rate a * srate a) by (field; lra). auto.
    + cbn [adsr_step] in S1. unfold set_attack_time, expects_pos in S1. destruct (Rlt_dec 0 t); [|lra]. pose proof (i_sr _ I). rewrite rdiv_ok in S1 by nra. cbn [bind] in S1. injection S1 as <- _. unfold get_attack_time. cbn.
      assert (1 / (t * srate a) * srate a = / t) by (field; lra). rewrite H0. rewrite rdiv_ok by (apply Rinv_neq_0_compat; lra). f_equal. field. lra.
  - intros SL. destruct (inv_step a (SetDecayTime t) I T) as [a1 [o1 [S1 [I1 _]]]]. destruct (inv_run a1 _ I1 L) as [b [out [R [Ib _]]]]. exists b, out. cbn [adsr_run]. rewrite S1. cbn [bind fst snd]. rewrite R. cbn [bind fst snd]. split; auto.
    apply (sr_chain get_decay_time a1 srs b out t); auto; try apply I1.
    + clear. intros a sr a' H1 H2 Q G. unfold adsr_set_sample_rate in Q. rewrite !rdiv_ok in Q by lra. injection Q as <-. unfold get_decay_time in *. cbn. replace (srate a * decay_rate a / sr * sr) with (decay_rate a * srate a) by (field; lra). auto.
    + cbn [adsr_step] in S1. unfold set_decay_time, expects_pos in S1. destruct (Rlt_dec 0 t); [|lra]. pose proof (i_sr _ I). rewrite rdiv_ok in S1 by nra. cbn [bind] in S1. injection S1 as <- _. unfold get_decay_time. cbn.
      replace ((1 - sustain_level a) / (t * srate a) * srate a) with ((1 - sustain_level a) / t) by (field; lra). rewrite rdiv_ok; [f_equal; field; lra|]. apply Rmult_integral_contrapositive. split; [lra|apply Rinv_neq_0_compat; lra].
  - destruct (inv_step a (SetReleaseTime t) I T) as [a1 [o1 [S1 [I1 _]]]]. destruct (inv_run a1 _ I1 L) as [b [out [R [Ib _]]]]. exists b, out. cbn [adsr_run]. rewrite S1. cbn [bind fst snd]. rewrite R. cbn [bind fst snd]. split; auto.
    assert (Q : Ok (get_release_time b) = Ok t); [|injection Q as ->; reflexivity]. apply (sr_chain (fun a => Ok (get_release_time a)) a1 srs b out t); auto; try apply I1.
    + clear. intros a sr a' H1 H2 Q G. unfold adsr_set_sample_rate in Q. rewrite !rdiv_ok in Q by lra. injection Q as <-. exact G.
    + cbn [adsr_step] in S1. unfold set_release_time, expects_pos in S1. destruct (Rlt_dec 0 t); [|lra]. pose proof (i_sr _ I). rewrite rdiv_ok in S1 by nra. cbn [bind] in S1. injection S1 as <- _. reflexivity.
Qed.
(** VIOLATION: release_rate() reports -1 after set_release_rate, whatever was set. *)
Theorem C76_release_rate_refuted a r b : 0 <= r -> set_release_rate a r = Ok b -> release_rate b = r /\ get_release_rate b <> r.
Proof. intros H E. unfold set_release_rate, expects_nonneg in E. destruct (Rle_dec 0 r); [|lra]. injection E as <-. cbn. split; [auto|]. unfold get_release_rate. cbn. lra. Qed.

Lemma sr_release a srs : 0 < srate a -> Forall (fun s => 0 < s) srs -> forall b out, adsr_run a (map SetSampleRate srs) = Ok (b, out) ->
  out = [] /\ value b = value a /\ release_time b = release_time a /\ release_rate b = release_rate a * srate a / List.last srs (srate a).
Proof.
  intros Ha F. revert a Ha. induction F as [|s srs Hs F IH]; intros a Ha b out R; cbn [map adsr_run adsr_step] in R.
  { injection R as <- <-. cbn [List.last]. repeat split; auto. field. lra. }
  destruct (adsr_set_sample_rate a s) as [a'| |] eqn:Q; try discriminate. cbn [bind fst snd] in R.
  destruct (adsr_run a' (map SetSampleRate srs)) as [[b' o']| |] eqn:R'; try discriminate. cbn [bind fst snd] in R. injection R as <- <-.
  unfold adsr_set_sample_rate in Q. rewrite !rdiv_ok in Q by lra. injection Q as <-.
  apply IH in R'; [|exact Hs]. destruct R' as [-> [V [T L]]]. cbn [value release_time release_rate srate] in V, T, L. repeat split; auto. rewrite L.
  destruct F as [|s2 srs Hs2 F]; [cbn [List.last]; field; lra|]. assert (P : 0 < List.last (s2 :: srs) s).
  { clear -Hs2 F. revert s2 Hs2. induction F as [|x l Hx F IH]; intros; [exact Hs2|]. change (0 < List.last (x :: l) s). apply IH, Hx. }
  assert (Q : List.last (s :: s2 :: srs) (srate a) = List.last (s2 :: srs) s).
  { change (List.last (s2 :: srs) (srate a) = List.last (s2 :: srs) s). clear. revert s2. induction srs as [|x l IH]; intros; [reflexivity|]. exact (IH x). }
  rewrite Q. field. lra.
Qed.
(** A release rate, set at one sample rate, is the same fall per second at every later one. *)
Theorem C76_release_rate_kept h a o r srs xs : Forall legal_op h -> adsr_run adsr_new h = Ok (a, o) -> 0 <= r -> Forall (fun s => 0 < s) srs -> exists a2 b,
  adsr_run a (SetReleaseRate r :: map SetSampleRate srs) = Ok (a2, []) /\
  adsr_run a2 (KeyOff :: map Sample xs) = Ok (b, map (fun p => (snd p, Rmax 0 (value a - INR (fst p) * (r * srate a / List.last srs (srate a))) * snd p)) (combine (seq 1 (length xs)) xs)).
Proof.
  intros F E H FS. destruct (inv_run adsr_new h inv_new F) as [a' [out' [E' [I _]]]]. rewrite E in E'. injection E' as <- <-.
  assert (L : Forall legal_op (map SetSampleRate srs)) by (clear -FS; induction FS; constructor; auto).
  destruct (inv_step a (SetReleaseRate r) I H) as [a1 [o1 [S1 [I1 _]]]]. destruct (inv_run a1 _ I1 L) as [a2 [out [R [I2 _]]]].
  destruct (sr_release a1 srs (i_sr _ I1) FS a2 out R) as [-> [V [T RR]]]. destruct (key_off_run a2 xs I2) as [b [K _]]. exists a2, b.
  assert (S2 := S1). cbn [adsr_step] in S1. unfold set_release_rate, expects_nonneg in S1. destruct (Rle_dec 0 r); [|lra]. cbn [bind] in S1. injection S1 as <- <-.
  cbn [value release_time release_rate srate] in V, T, RR. split.
  - cbn [adsr_run]. rewrite S2. cbn [bind fst snd]. rewrite R. reflexivity.
  - rewrite K. unfold released, release_step. rewrite T, V, RR. destruct (Rlt_dec 0 (-1)); [lra|]. reflexivity.
Qed.
(** Half a unit per second at 44.1 kHz, then 48 kHz. *)
Example C76_release_rate_kept_ex : Forall legal_op [KeyOn; Sample 1; SetReleaseRate (1 / 2)] /\ Forall (fun s => 0 < s) [44100; 48000] /\ List.last [44100; 48000] 1 = 48000.
Proof. repeat constructor; cbn; lra. Qed.

(** Rates, levels and targets read back at once; targets no lower than 10^-9 (-180 dB).  Each setter
    leaves the other parameters as they are. *)
Theorem C76_levels_actual a :
  (forall r, 0 <= r -> exists b, set_attack_rate a r = Ok b /\ attack_rate b = r /\ decay_rate b = decay_rate a /\ sustain_level b = sustain_level a /\ target b = target a /\ srate b = srate a) /\
  (forall r, 0 <= r -> exists b, set_decay_rate a r = Ok b /\ decay_rate b = r /\ attack_rate b = attack_rate a /\ sustain_level b = sustain_level a /\ target b = target a /\ srate b = srate a) /\
  (forall s, 0 <= s -> exists b, set_sustain_level a s = Ok b /\ sustain_level b = s /\ attack_rate b = attack_rate a /\ decay_rate b = decay_rate a /\ target b = target a /\ srate b = srate a) /\
  (forall t, 0 <= t -> exists b, set_attack_target a t = Ok b /\ target b = Rmax t (/ 10 ^ 9) /\ sustain_level b = sustain_level a /\ attack_rate b = attack_rate a /\ decay_rate b = decay_rate a /\ srate b = srate a /\ state b = state a) /\
  (forall t, exists b, set_target a t = Ok b /\ target b = Rmax t (/ 10 ^ 9) /\ sustain_level b = Rmax t (/ 10 ^ 9) /\ attack_rate b = attack_rate a /\ decay_rate b = decay_rate a /\ srate b = srate a /\ value b = value a /\
     (value a < Rmax t (/ 10 ^ 9) -> state b = attack) /\ (Rmax t (/ 10 ^ 9) < value a -> state b = decay) /\ (value a = Rmax t (/ 10 ^ 9) -> state b = state a)) /\
  (forall x, x < 0 -> set_attack_rate a x = UB /\ set_decay_rate a x = UB /\ set_sustain_level a x = UB /\ set_attack_target a x = UB /\ set_release_rate a x = UB) /\
  (forall x, x <= 0 -> set_attack_time a x = UB /\ set_decay_time a x = UB /\ set_release_time a x = UB).
Proof.
  assert (FT : forall t, floor_target t = Rmax t (/ 10 ^ 9)).
  { intros t. unfold floor_target, Rmax. destruct (Rlt_dec (/ 10 ^ 9) t), (Rle_dec t (/ 10 ^ 9)); try reflexivity; lra. }
  assert (P9 : 0 < / 10 ^ 9) by (apply Rinv_0_lt_compat; lra).
  unfold set_attack_rate, set_decay_rate, set_sustain_level, set_attack_target, set_release_rate, set_attack_time, set_decay_time, set_release_time, expects_nonneg, expects_pos.
  repeat split.
  1-4: intros r Hr; destruct (Rle_dec 0 r); [|lra]; eexists; split; [reflexivity|]; cbn; rewrite ?FT; repeat split; reflexivity.
  2-6: destruct (Rle_dec 0 x); [lra|reflexivity].
  2-4: destruct (Rlt_dec 0 x); [lra|reflexivity].
  intros t. unfold set_target, set_sustain_level, expects_nonneg. cbv zeta. rewrite FT. pose proof (Rmax_r t (/ 10 ^ 9)). set (g := Rmax t (/ 10 ^ 9)) in *.
  destruct (Rle_dec 0 g); [|lra]. cbn [bind]. eexists. split; [reflexivity|]. cbn. repeat (split; [reflexivity|]).
  destruct (Rlt_dec (value a) g), (Rlt_dec g (value a)); repeat split; intros; try reflexivity; lra.
Qed.
Example C76_levels_ex : exists b, set_target adsr_new (-1) = Ok b /\ target b = / 10 ^ 9.
Proof.
  destruct (C76_levels_actual adsr_new) as [_ [_ [_ [_ [H _]]]]]. destruct (H (-1)) as [b [E [T _]]]. exists b. split; auto. rewrite T.
  apply Rmax_right. apply Rle_trans with 0; [lra|]. left. apply Rinv_0_lt_compat; lra.
Qed.

(** * AR follower (C50) *)
Lemma ar_zero_gain d h : forall a b out, attack_gain a = 0 -> release_gain a = 0 -> ar_run d a h = Ok (b, out) ->
  forall r x y, In (r, x, y) out -> y = (let c := if r : bool then Rabs x else x in if d c then 0 else c).
Proof.
  assert (Z : forall a, attack_gain a = 0 -> release_gain a = 0 -> ar_reset a = Ok (mkAr (ar_rate a) (attack_t a) 0 (release_t a) 0 0 (rect a))).
  { intros a A B. unfold ar_reset. rewrite A, B. destruct (Rlt_dec 0 0); [lra|]. reflexivity. }
  induction h as [|c h IH]; intros a b out A B R r x y I; [injection R as <- <-; destruct I|].
  destruct c; cbn [ar_run] in R; unfold ar_set_sample_rate, ar_set_attack_time, ar_set_release_time in R;
    try (rewrite Z in R by (cbn; auto); cbn [bind] in R; refine (IH _ _ _ _ _ R r x y I); reflexivity).
  - refine (IH _ _ _ _ _ R r x y I); cbn; auto.
  - destruct (ar_run d (fst (ar_tick d a x0)) h) as [[b' o']| |] eqn:Q; try discriminate. cbn [bind fst snd] in R. injection R as <- <-. destruct I as [I|I].
    + injection I as <- <- <-. unfold ar_tick. cbn. rewrite A, B. set (c := if rect a then Rabs x0 else x0). replace (if Rlt_dec (last a) c then (1 - 0) * c + 0 * last a else (1 - 0) * c + 0 * last a) with c; [reflexivity|]. destruct (Rlt_dec (last a) c); ring.
    + refine (IH _ _ _ _ _ Q r x y I); cbn; auto.
Qed.
(** A history may be cut anywhere: running the second part on the follower left by the first gives the same outputs and leaves the same follower. *)
Theorem C50_ar_split d a g h : ar_run d a (g ++ h) = (p <- ar_run d a g ;; q <- ar_run d (fst p) h ;; Ok (fst q, snd p ++ snd q)).
Proof.
  revert a. induction g as [|c g IH]; intros a; [cbn; destruct (ar_run d a h) as [[? ?]| |]; reflexivity|].
  destruct c; cbn [ar_run app]; try (match goal with |- (b <- ?t ;; _) = _ => destruct t; cbn [bind]; [apply IH|reflexivity|reflexivity] end); try apply IH.
  rewrite IH. destruct (ar_run d (fst (ar_tick d a x)) g) as [[b o]| |]; cbn [bind fst snd]; try reflexivity. destruct (ar_run d b h) as [[b' o']| |]; reflexivity.
Qed.
(** Whatever times and sample rates were configured, every output is the (rectified) input itself. *)
Theorem C50_ar_actual d sr at_ rt rectify h : exists a, ar_new sr at_ rt rectify = Ok a /\ exists b out, ar_run d a h = Ok (b, out) /\
  forall r x y, In (r, x, y) out -> y = (let c := if r : bool then Rabs x else x in if d c then 0 else c).
Proof.
  assert (Z : forall a, attack_gain a = 0 -> release_gain a = 0 -> ar_reset a = Ok (mkAr (ar_rate a) (attack_t a) 0 (release_t a) 0 0 (rect a))).
  { intros a A B. unfold ar_reset. rewrite A, B. destruct (Rlt_dec 0 0); [lra|]. reflexivity. }
  eexists. split; [apply Z; reflexivity|]. cbn.
  assert (T : forall a, attack_gain a = 0 -> release_gain a = 0 -> exists b out, ar_run d a h = Ok (b, out)).
  { induction h as [|c h IH]; intros a A B; [eexists; eexists; reflexivity|]. destruct c; cbn [ar_run]; unfold ar_set_sample_rate, ar_set_attack_time, ar_set_release_time; try (rewrite Z by (cbn; auto); cbn [bind]); try (apply IH; cbn; auto; fail).
    destruct (IH (fst (ar_tick d a x))) as [b [out ->]]; cbn; auto. eexists. eexists. reflexivity. }
  destruct (T (mkAr sr at_ 0 rt 0 0 rectify) eq_refl eq_refl) as [b [out E]]. exists b, out. split; auto. eapply ar_zero_gain; [| |exact E]; reflexivity.
Qed.
(** VIOLATION: with positive times the step answer should lie strictly between the previous level 0 and the input. *)
Theorem C50_smoothing_refuted d sr at_ rt x : 0 < sr -> 0 < at_ -> 0 < rt -> 0 < x -> d x = false ->
  exists a b, ar_new sr at_ rt false = Ok a /\ ar_run d a [ArAttack at_; ArRelease rt; ArSample x] = Ok (b, [(false, x, x)]) /\ ~ 0 < x < x.
Proof.
  intros. destruct (C50_ar_actual d sr at_ rt false [ArAttack at_; ArRelease rt; ArSample x]) as [a [E [b [out [R G]]]]]. exists a, b. split; auto. split; [|lra].
  rewrite R. f_equal. f_equal. unfold ar_new, ar_reset in E. cbn in E. destruct (Rlt_dec 0 0) as [?|]; [lra|]. cbn in E. injection E as <-. cbn [ar_run ar_set_attack_time ar_set_release_time] in R. unfold ar_set_attack_time, ar_set_release_time, ar_reset in R. cbn in R.
  destruct (Rlt_dec 0 0) as [?|]; [lra|]. cbn in R. destruct (Rlt_dec 0 0) as [?|]; [lra|]. cbn in R. injection R as _ <-. specialize (G _ _ _ (or_introl eq_refl)). cbn in G. rewrite G. rewrite H3. reflexivity.
Qed.

(** * mu-law (C59) *)
Definition mu_curve (mx mu x : R) : R := nsign x * mx * ln (1 + mu * (Rabs x / mx)) / ln (1 + mu).
Lemma ln_pos x : 1 < x -> 0 < ln x. Proof. intros. rewrite <- ln_1. apply ln_increasing; lra. Qed.
Lemma ratio_nonneg mx x : 0 < mx -> 0 <= Rabs x / mx. Proof. intros. apply Rmult_le_pos; [apply Rabs_pos|]. left. apply Rinv_0_lt_compat. auto. Qed.
Lemma mu_compress1_ok mx mu x : 0 < mx -> 0 < mu -> mu_compress1 mx mu x = Ok (mu_curve mx mu x).
Proof.
  intros M U. unfold mu_compress1. rewrite rdiv_ok by lra. cbn [bind]. pose proof (ratio_nonneg mx x M). rewrite rlog_ok by nra. cbn [bind]. rewrite rlog_ok by lra. cbn [bind]. pose proof (ln_pos (1 + mu) ltac:(lra)). rewrite rdiv_ok by lra. reflexivity.
Qed.
Lemma mapM_Ok_map' {A B} (f : A -> res B) (g : A -> B) l : (forall x, In x l -> f x = Ok (g x)) -> mapM f l = Ok (map g l).
Proof. induction l as [|x l IH]; intros H; auto. cbn [mapM map]. rewrite H by (left; auto). cbn [bind]. rewrite IH by (intros; apply H; right; auto). reflexivity. Qed.
(** Compression keeps the range, the end points, zero and the sign, and is strictly increasing. *)
Theorem C59_compression mx mu l : 0 < mx -> 0 < mu -> mu_law_compression mx mu l = Ok (map (mu_curve mx mu) l) /\
  mu_curve mx mu 0 = 0 /\ mu_curve mx mu mx = mx /\ mu_curve mx mu (- mx) = - mx /\
  (forall x y, x < y -> mu_curve mx mu x < mu_curve mx mu y) /\ (forall x, Rabs x <= mx -> Rabs (mu_curve mx mu x) <= mx).
Proof.
  intros M U. pose proof (ln_pos (1 + mu) ltac:(lra)) as LP.
  assert (Z : mu_curve mx mu 0 = 0) by (unfold mu_curve; rewrite Rabs_R0; unfold Rdiv; rewrite Rmult_0_l, Rmult_0_r, Rplus_0_r, ln_1; ring).
  assert (P1 : mu_curve mx mu mx = mx). { unfold mu_curve, nsign. destruct (Rlt_dec mx 0); [lra|]. rewrite Rabs_right by lra. replace (mx / mx) with 1 by (field; lra). rewrite Rmult_1_r. field. lra. }
  assert (P2 : mu_curve mx mu (- mx) = - mx). { unfold mu_curve, nsign. destruct (Rlt_dec (- mx) 0); [|lra]. rewrite Rabs_left by lra. replace (- - mx / mx) with 1 by (field; lra). rewrite Rmult_1_r. field. lra. }
  assert (Inc : forall x y, x < y -> mu_curve mx mu x < mu_curve mx mu y).
  { intros x y L. unfold mu_curve. apply Rmult_lt_compat_r; [apply Rinv_0_lt_compat; auto|].
    assert (N : forall z, 0 <= z -> 0 <= ln (1 + mu * (z / mx))). { intros z Hz. assert (0 <= z / mx) by (apply Rmult_le_pos; [auto|left; apply Rinv_0_lt_compat; auto]). destruct (Req_EM_T (mu * (z / mx)) 0) as [->|]; [rewrite Rplus_0_r, ln_1; lra|]. left. apply ln_pos. nra. }
    assert (St : forall u v, 0 <= u -> u < v -> ln (1 + mu * (u / mx)) < ln (1 + mu * (v / mx))).
    { intros u v Hu Huv. assert (0 <= u / mx) by (apply Rmult_le_pos; [auto|left; apply Rinv_0_lt_compat; auto]). assert (u / mx < v / mx) by (apply Rmult_lt_compat_r; [apply Rinv_0_lt_compat; auto|auto]). apply ln_increasing; nra. }
    unfold nsign. destruct (Rlt_dec x 0), (Rlt_dec y 0).
    - rewrite !Rabs_left by auto. pose proof (St (- y) (- x) ltac:(lra) ltac:(lra)). nra.
    - rewrite Rabs_left, Rabs_right by lra. pose proof (N y ltac:(lra)). pose proof (St 0 (- x) ltac:(lra) ltac:(lra)). replace (0 / mx) with 0 in H0 by (field; lra). rewrite Rmult_0_r, Rplus_0_r, ln_1 in H0. nra.
    - lra.
    - rewrite !Rabs_right by lra. pose proof (St x y ltac:(lra) ltac:(lra)). nra. }
  split; [|repeat split; auto].
  - unfold mu_law_compression, expects_pos. destruct (Rlt_dec 0 mx); [|lra]. destruct (Rlt_dec 0 mu); [|lra]. apply mapM_Ok_map'. intros. apply mu_compress1_ok; auto.
  - intros x B. apply Rabs_le. assert (- mx <= x <= mx) by (unfold Rabs in B; destruct (Rcase_abs x); lra). split.
    + destruct (Req_EM_T x (- mx)) as [->|]; [lra|]. rewrite <- P2. left. apply Inc. lra.
    + destruct (Req_EM_T x mx) as [->|]; [lra|]. rewrite <- P1 at 2. left. apply Inc. lra.
Qed.
(** The inverse after the compressor multiplies by mu/ln(1+mu) instead of giving the samples back. *)
Theorem C59_inverse_actual mx mu l : 0 < mx -> 0 < mu -> (c <- mu_law_compression mx mu l ;; inverse_mu_law_compression mx mu c) = Ok (map (fun x => x * (mu / ln (1 + mu))) l).
Proof.
  intros M U. destruct (C59_compression mx mu l M U) as [-> [Z [_ [_ [Inc _]]]]]. cbn [bind]. unfold inverse_mu_law_compression, expects_pos. destruct (Rlt_dec 0 mx); [|lra]. destruct (Rlt_dec 0 mu); [|lra].
  pose proof (ln_pos (1 + mu) ltac:(lra)) as LP. induction l as [|x l IH]; auto. cbn [map mapM]. rewrite IH. clear IH.
  enough (E : mu_expand1 mx mu (mu_curve mx mu x) = Ok (x * (mu / ln (1 + mu)))) by (rewrite E; reflexivity).
  unfold mu_expand1. rewrite rdiv_ok by lra. cbn [bind]. rewrite rlog_ok by lra. cbn [bind]. rewrite rdiv_ok by lra. f_equal. pose proof (ratio_nonneg mx x M) as Q.
  assert (N : nsign (mu_curve mx mu x) = nsign x). { unfold nsign at 1 2. destruct (Rlt_dec x 0) as [L|L]. - specialize (Inc _ _ L). rewrite Z in Inc. destruct (Rlt_dec (mu_curve mx mu x) 0); lra. - destruct (Req_EM_T x 0) as [->|]; [rewrite Z; destruct (Rlt_dec 0 0); lra|]. assert (P : 0 < x) by lra. specialize (Inc _ _ P). rewrite Z in Inc. destruct (Rlt_dec (mu_curve mx mu x) 0); lra. }
  assert (A : Rabs (mu_curve mx mu x) / mx = ln (1 + mu * (Rabs x / mx)) / ln (1 + mu)).
  { assert (0 <= ln (1 + mu * (Rabs x / mx))). { destruct (Req_EM_T (mu * (Rabs x / mx)) 0) as [->|]; [rewrite Rplus_0_r, ln_1; lra|]. left. apply ln_pos. nra. }
    unfold mu_curve. set (w := ln (1 + mu * (Rabs x / mx))) in *. assert (G : forall s, Rabs s = 1 -> Rabs (s * mx * w / ln (1 + mu)) / mx = w / ln (1 + mu)).
    { intros s S. unfold Rdiv. rewrite !Rabs_mult, S, (Rabs_right mx), (Rabs_right w), (Rabs_right (/ ln (1 + mu))) by (try (apply Rle_ge; left; apply Rinv_0_lt_compat); lra). field. split; lra. }
    apply G. unfold nsign. destruct (Rlt_dec x 0); [rewrite Rabs_left by lra; ring|apply Rabs_R1]. }
  rewrite N, A. unfold Rpower. replace (ln (1 + mu * (Rabs x / mx)) / ln (1 + mu) * ln (1 + mu)) with (ln (1 + mu * (Rabs x / mx))) by (field; lra). rewrite exp_ln by nra.
  unfold nsign. destruct (Rlt_dec x 0); [rewrite Rabs_left by auto|rewrite Rabs_right by lra]; field; split; lra.
Qed.
Lemma ln_lt_sub1 u : 0 < u -> ln (1 + u) < u.
Proof. intros H. apply exp_lt_inv. rewrite exp_ln by lra. apply exp_ineq1. lra. Qed.
Theorem C59_round_trip_refuted mx mu x : 0 < mx -> 0 < mu -> x <> 0 -> exists y, (c <- mu_law_compression mx mu [x] ;; inverse_mu_law_compression mx mu c) = Ok [y] /\ y <> x /\ Rabs x < Rabs y.
Proof.
  intros M U X. rewrite C59_inverse_actual by auto. cbn [map]. eexists. split; [reflexivity|]. pose proof (ln_pos (1 + mu) ltac:(lra)) as LP. pose proof (ln_lt_sub1 mu U) as LL.
  assert (G : 1 < mu / ln (1 + mu)) by (apply Rmult_lt_reg_r with (ln (1 + mu)); auto; unfold Rdiv; rewrite Rmult_assoc, Rinv_l by lra; lra). split.
  - intros E. apply X. nra.
  - rewrite Rabs_mult, (Rabs_right (mu / ln (1 + mu))) by lra. pose proof (Rabs_pos_lt x X). nra.
Qed.

(** * Coloured noise (C60) *)
Lemma assign_le k x B : Rabs x <= B -> Rabs (assign k x) <= B.
Proof.
  intros H. destruct k; auto. cbn. eapply Rle_trans; [|exact H]. unfold ctrunc. destruct (Rlt_dec x 0).
  - destruct (cceil_spec x) as [[z Z] [C1 C2]]. rewrite (Rabs_left x) by auto. assert (cceil x <= 0). { rewrite Z in *. assert (IZR z < IZR 1) by lra. apply lt_IZR in H0. apply IZR_le. lia. } rewrite Rabs_left1 by auto. lra.
  - destruct (cfloor_spec x) as [[z Z] [C1 C2]]. rewrite (Rabs_right x) by lra. assert (0 <= cfloor x). { rewrite Z in *. assert (IZR (-1) < IZR z) by lra. apply lt_IZR in H0. apply IZR_le. lia. } rewrite Rabs_right by lra. lra.
Qed.
Lemma Rabs_lin a x b y X Y : Rabs x <= X -> Rabs y <= Y -> Rabs (a * x + y * b) <= Rabs a * X + Rabs b * Y.
Proof. intros HX HY. eapply Rle_trans; [apply Rabs_triang|]. rewrite !Rabs_mult. pose proof (Rabs_pos a). pose proof (Rabs_pos b). nra. Qed.
(** With white noise in [-M,M] brown noise stays in [-3.5 M, 3.5 M], for both kinds of value type. *)
Theorem C60_brown_range k M ws y : 0 <= M -> Forall (fun w => Rabs w <= M) ws -> In y (brown_run k 0 ws) -> Rabs y <= 35/10 * M.
Proof.
  intros HM F I. assert (G : forall l, Rabs l <= M -> In y (brown_run k l ws) -> Rabs y <= 35/10 * M); [|apply (G 0); auto; rewrite Rabs_R0; auto]. clear I.
  induction F as [|w ws W F IH]; intros l L I; [destruct I|]. cbn [brown_run brown_tick fst snd] in I.
  assert (A1 : Rabs (assign k (l + 2/100 * w)) <= 102/100 * M). { apply assign_le. eapply Rle_trans; [apply Rabs_triang|]. rewrite Rabs_mult, (Rabs_right (2/100)) by lra. lra. }
  assert (A2 : Rabs (assign k (assign k (l + 2/100 * w) / (102/100))) <= M). { apply assign_le. unfold Rdiv. rewrite Rabs_mult, (Rabs_right (/ (102 * / 100))) by lra. lra. }
  destruct I as [<-|I]; [|apply (IH _ A2 I)]. apply assign_le. rewrite Rabs_mult, (Rabs_right (35/10)) by lra. lra.
Qed.
(** With an integer value type and white noise below 50 in magnitude brown noise is silent. *)
Lemma ctrunc_small x : Rabs x < 1 -> ctrunc x = 0.
Proof.
  intros H. unfold ctrunc. destruct (Rlt_dec x 0).
  - rewrite Rabs_left in H by auto. destruct (cceil_spec x) as [[z Z] C]. rewrite Z in *. assert (z = 0)%Z; [|subst; auto]. assert (A : IZR z < IZR 1) by lra. assert (B : IZR (-1) < IZR z) by lra. apply lt_IZR in A, B. lia.
  - rewrite Rabs_right in H by lra. destruct (cfloor_spec x) as [[z Z] C]. rewrite Z in *. assert (z = 0)%Z; [|subst; auto]. assert (A : IZR z < IZR 1) by lra. assert (B : IZR (-1) < IZR z) by lra. apply lt_IZR in A, B. lia.
Qed.
Theorem C60_brown_integral_silent ws : Forall (fun w => Rabs w < 50) ws -> brown_run Integral 0 ws = map (fun _ => 0) ws.
Proof.
  induction 1 as [|w ws W F IH]; auto. cbn [brown_run brown_tick fst snd map assign]. rewrite (ctrunc_small (0 + 2/100 * w)) by (rewrite Rplus_0_l, Rabs_mult, (Rabs_right (2/100)) by lra; lra).
  assert (Z : ctrunc (0 / (102/100)) = 0) by (apply ctrunc_small; unfold Rdiv; rewrite Rmult_0_l, Rabs_R0; lra). rewrite Z. rewrite (ctrunc_small (35/10 * 0)) by (rewrite Rmult_0_r, Rabs_R0; lra). f_equal. apply IH.
Qed.
(** Pink noise stays in [-7.61 M, 7.61 M]. *)
Theorem C60_pink_range k M ws y : 0 <= M -> Forall (fun w => Rabs w <= M) ws -> In y (pink_run k pink_new ws) -> Rabs y <= 761/100 * M.
Proof.
  intros HM F I.
  set (ok := fun p => Rabs (b0 p) <= 487001/10000 * M /\ Rabs (b1 p) <= 112390/10000 * M /\ Rabs (b2 p) <= 49630/10000 * M /\ Rabs (b3 p) <= 23258/10000 * M /\ Rabs (b4 p) <= 11844/10000 * M /\ Rabs (b5 p) <= 709/10000 * M /\ Rabs (b6 p) <= 1160/10000 * M).
  assert (G : forall p, ok p -> In y (pink_run k p ws) -> Rabs y <= 761/100 * M); [|apply (G pink_new); auto; unfold ok; cbn; rewrite Rabs_R0; repeat split; lra]. clear I.
  induction F as [|w ws W F IH]; intros p P I; [destruct I|]. destruct P as [P0 [P1 [P2 [P3 [P4 [P5 P6]]]]]]. cbn [pink_run] in I.
  assert (Q : ok (fst (pink_tick k p w)) /\ Rabs (snd (pink_tick k p w)) <= 761/100 * M).
  { unfold pink_tick. cbn [fst snd]. unfold ok. cbn [b0 b1 b2 b3 b4 b5 b6].
    assert (L : forall a x b X Z, 0 <= a -> 0 <= b -> Rabs x <= X -> a * X + b * M <= Z -> Rabs (assign k (a * x + w * b)) <= Z).
    { intros a x b X Z Ha Hb HX HZ. apply assign_le. pose proof (Rabs_lin a x b w X M HX W) as H. rewrite (Rabs_right a), (Rabs_right b) in H by lra. lra. }
    assert (Q0 : Rabs (assign k (99886/100000 * b0 p + w * (555179/10000000))) <= 487001/10000 * M) by (eapply L; [| |exact P0|]; lra).
    assert (Q1 : Rabs (assign k (99332/100000 * b1 p + w * (750759/10000000))) <= 112390/10000 * M) by (eapply L; [| |exact P1|]; lra).
    assert (Q2 : Rabs (assign k (96900/100000 * b2 p + w * (1538520/10000000))) <= 49630/10000 * M) by (eapply L; [| |exact P2|]; lra).
    assert (Q3 : Rabs (assign k (86650/100000 * b3 p + w * (3104856/10000000))) <= 23258/10000 * M) by (eapply L; [| |exact P3|]; lra).
    assert (Q4 : Rabs (assign k (55000/100000 * b4 p + w * (5329522/10000000))) <= 11844/10000 * M) by (eapply L; [| |exact P4|]; lra).
    assert (Q5 : Rabs (assign k (-7616/10000 * b5 p - w * (168980/10000000))) <= 709/10000 * M).
    { apply assign_le. replace (-7616/10000 * b5 p - w * (168980/10000000)) with (- (7616/10000 * b5 p + w * (168980/10000000))) by field. rewrite Rabs_Ropp. pose proof (Rabs_lin (7616/10000) (b5 p) (168980/10000000) w _ M P5 W) as H. rewrite (Rabs_right (7616/10000)), (Rabs_right (168980/10000000)) in H by lra. lra. }
    assert (Q6 : Rabs (assign k (w * (115926/1000000))) <= 1160/10000 * M). { apply assign_le. rewrite Rabs_mult, (Rabs_right (115926/1000000)) by lra. lra. }
    split; [repeat split; auto|]. apply assign_le. rewrite Rabs_mult, (Rabs_right (11/100)) by lra.
    match goal with |- Rabs (?a + ?b + ?c + ?d + ?e + ?f + ?g + ?h) * _ <= _ =>
      assert (T : Rabs (a + b + c + d + e + f + g + h) <= Rabs a + Rabs b + Rabs c + Rabs d + Rabs e + Rabs f + Rabs g + Rabs h) by
        (repeat (eapply Rle_trans; [apply Rabs_triang|]; apply Rplus_le_compat_r); apply Rle_refl) end.
    rewrite (Rabs_mult w), (Rabs_right (5362/10000)) in T by lra. lra. }
  destruct Q as [Q1 Q2]. destruct I as [<-|I]; [exact Q2|apply (IH _ Q1 I)].
Qed.
(** Exactly: for floating-point types, each output is the response of a fixed bank of one-pole filters to
    the white samples so far.  [echo a ws n] is the sum of a^j times the white sample j steps back. *)
Definition echo (a : R) (ws : list R) (n : nat) : R :=
  fold_right Rplus 0 (map (fun j => a ^ j * nth (n - j) ws 0) (seq 0 (S n))).
Lemma echo_0 a ws : echo a ws 0 = nth 0 ws 0.
Proof. unfold echo. cbn. ring. Qed.
Lemma echo_S a ws n : echo a ws (S n) = a * echo a ws n + nth (S n) ws 0.
Proof.
  unfold echo. change (seq 0 (S (S n))) with (0%nat :: seq 1 (S n)). rewrite <- seq_shift, map_cons, map_map. cbn [fold_right]. rewrite Nat.sub_0_r.
  assert (E : forall l, fold_right Rplus 0 (map (fun x => a ^ S x * nth (S n - S x) ws 0) l) = a * fold_right Rplus 0 (map (fun j => a ^ j * nth (n - j) ws 0) l)).
  { induction l as [|j l IH]; cbn [map fold_right]; [ring|]. rewrite IH. cbn [Nat.sub pow]. ring. }
  rewrite E. cbn [pow]. ring.
Qed.
Theorem C60_brown_response ws n : (n < length ws)%nat ->
  nth n (brown_run Floating 0 ws) 0 = 35/10 * (2/102) * echo (100/102) ws n.
Proof.
  assert (G : forall m l0 ws, (m < length ws)%nat -> nth m (brown_run Floating l0 ws) 0 = 35/10 * ((100/102) ^ S m * l0 + 2/102 * echo (100/102) ws m)).
  { induction m as [|m IH]; intros l0 [|w t] H; cbn [length] in H; try lia.
    - cbn [brown_run brown_tick nth fst snd assign]. rewrite echo_0. cbn [nth pow]. field.
    - cbn [brown_run brown_tick nth fst snd assign]. rewrite IH by lia.
      assert (E : forall k, echo (100/102) (w :: t) (S k) = (100/102) ^ S k * w + echo (100/102) t k).
      { induction k as [|k IHk]; [rewrite echo_S, !echo_0; cbn [nth pow]; ring|]. rewrite echo_S, IHk, echo_S. cbn [nth pow]. ring. }
      rewrite E. cbn [pow]. field. }
  intros H. rewrite G by auto. ring.
Qed.
Theorem C60_pink_response ws n : (n < length ws)%nat ->
  nth n (pink_run Floating pink_new ws) 0 =
  11/100 * (555179/10000000 * echo (99886/100000) ws n + 750759/10000000 * echo (99332/100000) ws n + 1538520/10000000 * echo (96900/100000) ws n
          + 3104856/10000000 * echo (86650/100000) ws n + 5329522/10000000 * echo (55000/100000) ws n - 168980/10000000 * echo (-7616/10000) ws n
          + 115926/1000000 * (match n with O => 0 | S m => nth m ws 0 end) + 5362/10000 * nth n ws 0).
Proof.
  assert (G : forall m p ws, (m < length ws)%nat -> nth m (pink_run Floating p ws) 0 =
    11/100 * ((99886/100000) ^ S m * b0 p + 555179/10000000 * echo (99886/100000) ws m + ((99332/100000) ^ S m * b1 p + 750759/10000000 * echo (99332/100000) ws m)
      + ((96900/100000) ^ S m * b2 p + 1538520/10000000 * echo (96900/100000) ws m) + ((86650/100000) ^ S m * b3 p + 3104856/10000000 * echo (86650/100000) ws m)
      + ((55000/100000) ^ S m * b4 p + 5329522/10000000 * echo (55000/100000) ws m) + ((-7616/10000) ^ S m * b5 p - 168980/10000000 * echo (-7616/10000) ws m)
      + (match m with O => b6 p | S q => 115926/1000000 * nth q ws 0 end) + 5362/10000 * nth m ws 0)).
  { assert (E : forall a w t k, echo a (w :: t) (S k) = a ^ S k * w + echo a t k).
    { intros a w t. induction k as [|k IHk]; [rewrite echo_S, !echo_0; cbn [nth pow]; ring|]. rewrite echo_S, IHk, echo_S. cbn [nth pow]. ring. }
    induction m as [|m IH]; intros p [|w t] H; cbn [length] in H; try lia.
    - cbn [pink_run nth snd pink_tick assign]. rewrite !echo_0. cbn [nth pow]. field.
    - cbn [pink_run nth fst pink_tick assign]. rewrite IH by lia. cbn [b0 b1 b2 b3 b4 b5 b6]. rewrite !E. destruct m; cbn [pow nth]; field. }
  intros H. rewrite G by auto. cbn [pink_new b0 b1 b2 b3 b4 b5 b6]. destruct n; cbn [pow]; ring.
Qed.
Example C60_ex : In (35/10 * (2/102)) (brown_run Floating 0 [1]).
Proof. left. cbn. field. Qed.
Print Assumptions C49_range.
Print Assumptions C49_release.
Print Assumptions C49_release_ends.
Print Assumptions C49_idle.
Print Assumptions C49_default_envelope.
Print Assumptions C49_release_time_stuck_refuted.
Print Assumptions C75_attack_reaches_target.
Print Assumptions C75_decay.
Print Assumptions C75_attack_target_refuted.
Print Assumptions C76_times.
Print Assumptions C76_release_rate_refuted.
Print Assumptions C76_release_rate_kept.
Print Assumptions C76_levels_actual.
Print Assumptions C50_ar_split.
Print Assumptions C50_ar_actual.
Print Assumptions C50_smoothing_refuted.
Print Assumptions C59_compression.
Print Assumptions C59_inverse_actual.
Print Assumptions C59_round_trip_refuted.
Print Assumptions C60_brown_range.
Print Assumptions C60_brown_integral_silent.
Print Assumptions C60_pink_range.
Print Assumptions C60_brown_response.
Print Assumptions C60_pink_response.
