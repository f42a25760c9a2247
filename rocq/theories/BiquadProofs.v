From Coq Require Import Permutation Psatz.
From Verif Require Import RealBase RealBaseProofs BaseProofs Cplx CplxProofs SignalSpec BiquadModel BiquadSpec.
Local Open Scope R_scope.

(** ** Generic facts about filtering a list *)
Section Generic.
Context {S : Type} (tick : S -> R -> S * R).

Lemma filter_app xs ys q :
  filter_with tick q (xs ++ ys) =
  (fst (filter_with tick (fst (filter_with tick q xs)) ys),
   snd (filter_with tick q xs) ++ snd (filter_with tick (fst (filter_with tick q xs)) ys)).
Proof.
  revert q; induction xs as [|x xs IH]; intros q; simpl.
  - destruct (filter_with tick q ys); reflexivity.
  - rewrite IH. reflexivity.
Qed.
Lemma filter_length xs q : length (snd (filter_with tick q xs)) = length xs.
Proof. revert q; induction xs as [|x xs IH]; intros q; simpl; auto. Qed.
Lemma filter_firstn n xs q : snd (filter_with tick q (firstn n xs)) = firstn n (snd (filter_with tick q xs)).
Proof.
  revert n q; induction xs as [|x xs IH]; intros n q; destruct n as [|n]; simpl; auto.
  rewrite IH. reflexivity.
Qed.
Lemma inplace_lemma xs : forall q pre,
  filter_inplace_from tick q (pre ++ xs) (length pre) (length xs) =
  Ok (fst (filter_with tick q xs), pre ++ snd (filter_with tick q xs)).
Proof.
  induction xs as [|x xs IH]; intros q pre; simpl.
  - reflexivity.
  - unfold load. rewrite nth_error_app2, Nat.sub_diag by lia. simpl.
    assert (E : forall v, store (pre ++ x :: xs) (length pre) v = Ok ((pre ++ [v]) ++ xs)).
    { intros v. rewrite <- app_assoc. simpl. clear. induction pre as [|p pre IHp]; simpl; [reflexivity|].
      rewrite IHp. reflexivity. }
    rewrite E. simpl.
    replace (length pre + 1)%nat with (length (pre ++ [snd (tick q x)])) by (rewrite app_length; reflexivity).
    rewrite IH, <- app_assoc. reflexivity.
Qed.
End Generic.

Lemma bq_filter_app xs ys q :
  bq_filter q (xs ++ ys) =
  (fst (bq_filter (fst (bq_filter q xs)) ys), snd (bq_filter q xs) ++ snd (bq_filter (fst (bq_filter q xs)) ys)).
Proof. exact (filter_app bq_tick xs ys q). Qed.

(** ** Coefficients are never changed by filtering *)
Lemma filter_coeffs xs : forall q, same_coeffs (fst (bq_filter q xs)) q.
Proof.
  induction xs as [|x xs IH]; intros q; [repeat split|].
  cbn [bq_filter filter_with fst]. specialize (IH (fst (bq_tick q x))).
  unfold same_coeffs in *. exact IH.
Qed.
Lemma reset_eq p q : same_coeffs p q -> bq_reset p = bq_reset q.
Proof. intros [H1 [H2 [H3 [H4 [H5 H6]]]]]. unfold bq_reset. congruence. Qed.

(** ** Sequences *)
Definition sh (f : nat -> R) (n : nat) : R := match n with O => 0 | S m => f m end.
Definition seqof (l : list R) (n : nat) : R := nth n l 0.
Definition P (c0 c1 c2 : R) (f : nat -> R) (n : nat) : R := c0 * f n + c1 * sh f n + c2 * sh (sh f) n.
Definition eqN (N : nat) (f g : nat -> R) : Prop := forall n, (n < N)%nat -> f n = g n.

Lemma eqN_sh N f g : eqN N f g -> eqN N (sh f) (sh g).
Proof. intros H [|n] Hn; [reflexivity|]. apply H; lia. Qed.
Lemma eqN_P N c0 c1 c2 f g : eqN N f g -> eqN N (P c0 c1 c2 f) (P c0 c1 c2 g).
Proof.
  intros H n Hn. unfold P. pose proof (eqN_sh N f g H) as H1. pose proof (eqN_sh N _ _ H1) as H2.
  rewrite (H n Hn), (H1 n Hn), (H2 n Hn). reflexivity.
Qed.
Lemma eqN_sym N f g : eqN N f g -> eqN N g f.
Proof. intros H n Hn; symmetry; auto. Qed.
Lemma eqN_trans N f g h : eqN N f g -> eqN N g h -> eqN N f h.
Proof. intros H1 H2 n Hn; rewrite H1; auto. Qed.
Lemma P_comm c0 c1 c2 d0 d1 d2 f N : eqN N (P c0 c1 c2 (P d0 d1 d2 f)) (P d0 d1 d2 (P c0 c1 c2 f)).
Proof.
  intros n _. unfold P. destruct n as [|[|n]]; simpl; ring.
Qed.
Lemma P_unique N c1 c2 f g : eqN N (P 1 c1 c2 f) (P 1 c1 c2 g) -> eqN N f g.
Proof.
  intros H n. induction n as [n IH] using (well_founded_induction lt_wf). intros Hn.
  specialize (H n Hn). unfold P in H.
  assert (E1 : sh f n = sh g n) by (destruct n as [|n]; [reflexivity|]; apply IH; lia).
  assert (E2 : sh (sh f) n = sh (sh g) n) by (destruct n as [|[|n]]; [reflexivity|reflexivity|]; apply IH; lia).
  rewrite E1, E2 in H. lra.
Qed.

Lemma past_0 l n : past l n 0 = seqof l n.
Proof. unfold past, seqof; simpl. rewrite Nat.sub_0_r. reflexivity. Qed.
Lemma past_1 l n : past l n 1 = sh (seqof l) n.
Proof. unfold past, seqof, sh. destruct n as [|n]; [reflexivity|]. cbn [Nat.leb]. rewrite Nat.sub_succ, Nat.sub_0_r. reflexivity. Qed.
Lemma past_2 l n : past l n 2 = sh (sh (seqof l)) n.
Proof. unfold past, seqof, sh. destruct n as [|[|n]]; [reflexivity|reflexivity|]. cbn [Nat.leb]. rewrite !Nat.sub_succ, Nat.sub_0_r. reflexivity. Qed.

Lemma obeys_P A0 A1 A2 B0 B1 B2 xs ys :
  obeys A0 A1 A2 B0 B1 B2 xs ys <->
  length ys = length xs /\ eqN (length xs) (P A0 A1 A2 (seqof ys)) (P B0 B1 B2 (seqof xs)).
Proof.
  unfold obeys, eqN, P. split; intros [H1 H2]; split; auto; intros n Hn; specialize (H2 n Hn);
    rewrite ?past_0, ?past_1, ?past_2 in *; lra.
Qed.

Lemma seqof_ext l l' : length l = length l' -> eqN (length l) (seqof l) (seqof l') -> l = l'.
Proof. intros HL H. apply (nth_ext _ _ 0 0); auto. Qed.

Lemma obeys_unique A1 A2 B0 B1 B2 xs ys ys' :
  obeys 1 A1 A2 B0 B1 B2 xs ys -> obeys 1 A1 A2 B0 B1 B2 xs ys' -> ys = ys'.
Proof.
  rewrite !obeys_P. intros [L1 E1] [L2 E2]. apply seqof_ext; [congruence|]. rewrite L1.
  apply (P_unique _ A1 A2). eapply eqN_trans; [exact E1|apply eqN_sym; exact E2].
Qed.

(** ** The state after a history *)
Definition lag (l : list R) (j : nat) : R := nth j (rev l) 0.
Lemma lag_snoc_0 l x : lag (l ++ [x]) 0 = x.
Proof. unfold lag. rewrite rev_app_distr. reflexivity. Qed.
Lemma lag_snoc_S l x j : lag (l ++ [x]) (S j) = lag l j.
Proof. unfold lag. rewrite rev_app_distr. reflexivity. Qed.

Lemma state_lemma xs : forall q, w0 q = 0 -> w1 q = 0 ->
  let r := bq_filter q xs in
  w0 (fst r) = b1 q * lag xs 0 + b2 q * lag xs 1 - a1 q * lag (snd r) 0 - a2 q * lag (snd r) 1 /\
  w1 (fst r) = b2 q * lag xs 0 - a2 q * lag (snd r) 0.
Proof.
  induction xs as [|x xs IH] using rev_ind; intros q H0 H1 r.
  - unfold r; simpl. unfold lag; simpl. rewrite H0, H1. lra.
  - unfold r, bq_filter. rewrite filter_app. cbn [fst snd].
    destruct (IH q H0 H1) as [E0 E1]. fold bq_filter in *.
    destruct (filter_coeffs xs q) as [Cb2 [Cb1 [Cb0 [Ca2 [Ca1 Ca0]]]]].
    cbn [filter_with fst snd bq_filter] in *. unfold bq_filter in *. cbn [filter_with bq_tick fst snd w0 w1].
    rewrite !lag_snoc_0, !lag_snoc_S, Cb2, Cb1, Cb0, Ca2, Ca1, E0, E1. lra.
Qed.

Lemma lag_past l k j : (k < length l)%nat -> past l k j = lag (firstn (k + 1) l) j.
Proof.
  intros Hk. unfold past, lag.
  destruct (Nat.leb_spec j k) as [L|L].
  - rewrite rev_nth by (rewrite firstn_length; lia). rewrite firstn_length.
    rewrite <- (firstn_skipn (k + 1) l) at 1. rewrite app_nth1 by (rewrite firstn_length; lia).
    f_equal. lia.
  - rewrite nth_overflow; [reflexivity|]. rewrite rev_length, firstn_length. lia.
Qed.
Lemma firstn_S_nth (l : list R) k : (k < length l)%nat -> firstn (k + 1) l = firstn k l ++ [nth k l 0].
Proof.
  revert k; induction l as [|x l IH]; intros k Hk; [simpl in Hk; lia|].
  destruct k as [|k]; [reflexivity|]. simpl in *. rewrite IH by lia. reflexivity.
Qed.

Lemma biquad_obeys q xs : w0 q = 0 -> w1 q = 0 ->
  obeys 1 (a1 q) (a2 q) (b0 q) (b1 q) (b2 q) xs (snd (bq_filter q xs)).
Proof.
  intros H0 H1. split; [apply filter_length|]. intros n Hn.
  pose proof (filter_length bq_tick xs q) as HL. fold bq_filter in HL.
  rewrite !lag_past by (try rewrite HL; lia).
  rewrite <- !filter_firstn with (tick := bq_tick). fold bq_filter.
  rewrite (firstn_S_nth xs) by lia.
  set (pre := firstn n xs). set (x := nth n xs 0).
  unfold bq_filter. rewrite filter_app. cbn [snd fst filter_with bq_tick].
  rewrite !lag_snoc_0, !lag_snoc_S.
  destruct (state_lemma pre q H0 H1) as [E0 E1]. unfold bq_filter in *.
  destruct (filter_coeffs pre q) as [Cb2 [Cb1 [Cb0 [Ca2 [Ca1 Ca0]]]]]. unfold bq_filter in *.
  rewrite Cb0, E0. lra.
Qed.

Lemma bq_coeffs_ok c0 c1 c2 d0 d1 d2 : c0 <> 0 ->
  bq_coeffs c0 c1 c2 d0 d1 d2 = Ok (mkBq (d2 / c0) (d1 / c0) (d0 / c0) (c2 / c0) (c1 / c0) 1 0 0).
Proof. intros H. unfold bq_coeffs. rewrite !rdiv_ok by auto. reflexivity. Qed.

Lemma difference_equation_lemma c0 c1 c2 d0 d1 d2 : c0 <> 0 ->
  exists q, bq_coeffs c0 c1 c2 d0 d1 d2 = Ok q /\
    forall xs, obeys c0 c1 c2 d0 d1 d2 xs (snd (bq_filter q xs)).
Proof.
  intros H. eexists; split; [apply bq_coeffs_ok; auto|]. intros xs.
  set (q := mkBq _ _ _ _ _ _ _ _).
  destruct (biquad_obeys q xs eq_refl eq_refl) as [HL HE]. split; [exact HL|].
  intros n Hn. specialize (HE n Hn). unfold q in HE; cbn [a1 a2 b0 b1 b2] in HE. fold q in HE.
  rewrite Rmult_1_l in HE. rewrite HE. field. exact H.
Qed.

Lemma obeys_unique_gen c0 c1 c2 d0 d1 d2 xs ys ys' : c0 <> 0 ->
  obeys c0 c1 c2 d0 d1 d2 xs ys -> obeys c0 c1 c2 d0 d1 d2 xs ys' -> ys = ys'.
Proof.
  intros H0 [L1 H1] [L2 H2].
  apply (obeys_unique (c1 / c0) (c2 / c0) (d0 / c0) (d1 / c0) (d2 / c0) xs);
    (split; [assumption|]); intros n Hn.
  - specialize (H1 n Hn). apply (Rmult_eq_reg_l c0); auto. rewrite Rmult_1_l, H1. field; auto.
  - specialize (H2 n Hn). apply (Rmult_eq_reg_l c0); auto. rewrite Rmult_1_l, H2. field; auto.
Qed.

(** ** Linearity, time invariance, causality *)
Lemma linear_lemma a b xs : forall ys q q1 q2, length xs = length ys ->
  same_coeffs q1 q -> same_coeffs q2 q -> w0 q = a * w0 q1 + b * w0 q2 -> w1 q = a * w1 q1 + b * w1 q2 ->
  snd (bq_filter q (lincomb a b xs ys)) = lincomb a b (snd (bq_filter q1 xs)) (snd (bq_filter q2 ys)).
Proof.
  induction xs as [|x xs IH]; intros [|y ys] q q1 q2 HL S1 S2 H0 H1; simpl in HL; try lia; [reflexivity|].
  cbn [lincomb bq_filter filter_with snd fst].
  assert (Ho : snd (bq_tick q (a * x + b * y)) = a * snd (bq_tick q1 x) + b * snd (bq_tick q2 y)).
  { cbn [bq_tick snd]. destruct S1 as [? [? [-> _]]]. destruct S2 as [? [? [-> _]]]. rewrite H0. ring. }
  f_equal; [exact Ho|].
  apply IH; [lia|exact S1|exact S2| |]; cbn [bq_tick fst snd w0 w1 a1 a2 b0 b1 b2] in *;
    destruct S1 as [E2 [E1 [E0 [F2 [F1 F0]]]]]; destruct S2 as [G2 [G1 [G0 [K2 [K1 K0]]]]].
  - rewrite Ho, E1, G1, F1, K1, H1. rewrite E0, G0. ring.
  - rewrite Ho, E2, G2, F2, K2. rewrite E0, G0. ring.
Qed.

Lemma zeros_lemma k : forall q, w0 q = 0 -> w1 q = 0 ->
  bq_filter q (repeat 0 k) = (q, repeat 0 k).
Proof.
  induction k as [|k IH]; intros q H0 H1; [reflexivity|].
  cbn [repeat bq_filter filter_with].
  assert (E : bq_tick q 0 = (q, 0)).
  { unfold bq_tick. rewrite H0, H1. rewrite !Rmult_0_r, !Rplus_0_r. rewrite !Rmult_0_r, Rminus_0_r.
    destruct q; simpl in *; subst. reflexivity. }
  rewrite E. cbn [fst snd]. fold bq_filter. rewrite IH by auto. reflexivity.
Qed.

Lemma shift_lemma k xs q : w0 q = 0 -> w1 q = 0 ->
  snd (bq_filter q (repeat 0 k ++ xs)) = repeat 0 k ++ snd (bq_filter q xs).
Proof.
  intros H0 H1. rewrite bq_filter_app, (zeros_lemma k q H0 H1). reflexivity.
Qed.

(** ** Convolution with the impulse response *)
Lemma convf_ext h h' x x' N : eqN N h h' -> eqN N x x' -> eqN N (convf h x) (convf h' x').
Proof. intros H1 H2 n Hn. unfold convf. apply sumf_ext. intros i Hi. rewrite H1, H2 by lia. reflexivity. Qed.
Lemma convf_sh h x N : eqN N (convf (sh h) x) (sh (convf h x)).
Proof.
  intros [|n] _; unfold convf.
  - simpl. ring.
  - replace (S n + 1)%nat with (S (n + 1)) by lia. rewrite sumf_S_l. simpl sh at 1. rewrite Rmult_0_l, Rplus_0_l.
    cbn [sh]. apply sumf_ext; intros i Hi. cbn [sh]. f_equal.
Qed.
Lemma convf_P c0 c1 c2 h x N : eqN N (convf (P c0 c1 c2 h) x) (P c0 c1 c2 (convf h x)).
Proof.
  intros n Hn. unfold P at 2.
  rewrite <- (convf_sh h x N n Hn).
  assert (E : sh (sh (convf h x)) n = convf (sh (sh h)) x n).
  { rewrite (convf_sh (sh h) x N n Hn). destruct n as [|n]; [reflexivity|]. cbn [sh]. symmetry. apply (convf_sh h x N); lia. }
  rewrite E. unfold convf. rewrite <- !sumf_scal, <- !sumf_plus. apply sumf_ext; intros i Hi. unfold P. ring.
Qed.
Lemma convf_single b x n : (forall i, (0 < i)%nat -> b i = 0) -> convf b x n = b O * x n.
Proof.
  intros H. unfold convf. rewrite (sumf_single _ (n + 1) 0) by first [lia | intros i Hi Hne; rewrite H by lia; ring].
  rewrite Nat.sub_0_r. reflexivity.
Qed.

Lemma impulse_lemma q xs : w0 q = 0 -> w1 q = 0 ->
  forall k, (k < length xs)%nat ->
  nth_error (snd (bq_filter q xs)) k =
  Some (convf (fun n => nth n (snd (bq_filter q (impulse k))) 0) (fun n => nth n xs 0) k).
Proof.
  intros H0 H1 k Hk.
  assert (HLI : length (impulse k) = (k + 1)%nat) by (unfold impulse; simpl; rewrite repeat_length; lia).
  pose proof (proj1 (obeys_P _ _ _ _ _ _ _ _) (biquad_obeys q (impulse k) H0 H1)) as [LI EI].
  pose proof (proj1 (obeys_P _ _ _ _ _ _ _ _) (biquad_obeys q (firstn (k + 1) xs) H0 H1)) as [LX EX].
  set (h := snd (bq_filter q (impulse k))) in *.
  set (xf := firstn (k + 1) xs) in *.
  assert (HX : length xf = (k + 1)%nat) by (unfold xf; rewrite firstn_length; lia).
  rewrite HLI in EI. rewrite HX in EX.
  assert (EC : eqN (k + 1) (seqof (snd (bq_filter q xf))) (convf (seqof h) (seqof xf))).
  { apply (P_unique _ (a1 q) (a2 q)). eapply eqN_trans; [exact EX|].
    eapply eqN_trans; [|apply convf_P].
    apply eqN_sym. eapply eqN_trans; [apply (convf_ext _ (P (b0 q) (b1 q) (b2 q) (seqof (impulse k))) _ (seqof xf)); [exact EI|intros n _; reflexivity]|].
    eapply eqN_trans; [apply convf_P|].
    apply eqN_P. intros n Hn. rewrite convf_single.
    - unfold seqof at 1, impulse; simpl. ring.
    - intros i Hi. unfold seqof, impulse. destruct i as [|i]; [lia|]. cbn [nth].
      destruct (lt_dec i k); [apply nth_repeat|apply nth_overflow; rewrite repeat_length; lia]. }
  specialize (EC k ltac:(lia)).
  pose proof (filter_length bq_tick xs q) as HL. fold bq_filter in HL.
  rewrite (nth_error_nth' _ 0) by lia. f_equal.
  unfold xf in EC. unfold bq_filter in EC. rewrite filter_firstn in EC. fold bq_filter in EC.
  unfold seqof in EC. assert (NF : forall (l : list R) i, (i <= k)%nat -> nth i (firstn (k + 1) l) 0 = nth i l 0).
  { intros l i Hi. assert (Hi' : (i < k + 1)%nat) by lia. clear -Hi'. revert l i Hi'. generalize (k + 1)%nat as m. intros m.
    induction m as [|m IH]; intros l i Hi; [lia|]. destruct l; [reflexivity|]. destruct i; [reflexivity|]. simpl; apply IH; lia. }
  rewrite NF in EC by lia. rewrite EC. unfold convf. apply sumf_ext. intros i Hi. rewrite NF by lia. reflexivity.
Qed.

Lemma blocks_lemma blocks : forall q, filter_blocks q blocks = bq_filter q (concat blocks).
Proof.
  induction blocks as [|b t IH]; intros q; [reflexivity|].
  cbn [filter_blocks concat]. rewrite bq_filter_app, IH. reflexivity.
Qed.
Lemma reset_after_lemma q xs : bq_reset (fst (bq_filter q xs)) = bq_reset q.
Proof. apply reset_eq, filter_coeffs. Qed.
Lemma bq_inplace_lemma q buf :
  bq_filter_inplace q buf = Ok (bq_filter q buf).
Proof.
  unfold bq_filter_inplace, bq_filter. pose proof (inplace_lemma bq_tick buf q []) as E. cbn [app length] in E.
  rewrite E. destruct (filter_with bq_tick q buf); reflexivity.
Qed.
Lemma linear_rest_lemma q a b xs ys : at_rest q -> length xs = length ys ->
  snd (bq_filter q (lincomb a b xs ys)) = lincomb a b (snd (bq_filter q xs)) (snd (bq_filter q ys)).
Proof.
  intros [H0 H1] HL. apply linear_lemma; auto; try (repeat split; reflexivity); rewrite ?H0, ?H1; ring.
Qed.
Lemma causal_lemma q xs n : snd (bq_filter q (firstn n xs)) = firstn n (snd (bq_filter q xs)).
Proof. apply filter_firstn. Qed.
Lemma setters_lemma q v xs :
  obeys 1 v (a2 q) (b0 q) (b1 q) (b2 q) xs (snd (bq_filter (set_a1 q v) xs)) /\
  obeys 1 (a1 q) v (b0 q) (b1 q) (b2 q) xs (snd (bq_filter (set_a2 q v) xs)) /\
  obeys 1 (a1 q) (a2 q) v (b1 q) (b2 q) xs (snd (bq_filter (set_b0 q v) xs)) /\
  obeys 1 (a1 q) (a2 q) (b0 q) v (b2 q) xs (snd (bq_filter (set_b1 q v) xs)) /\
  obeys 1 (a1 q) (a2 q) (b0 q) (b1 q) v xs (snd (bq_filter (set_b2 q v) xs)) /\
  obeys 1 (a1 q) (a2 q) (b0 q) (b1 q) (b2 q) xs (snd (bq_filter (set_a0 q v) xs)).
Proof.
  split; [exact (biquad_obeys (set_a1 q v) xs eq_refl eq_refl)|].
  split; [exact (biquad_obeys (set_a2 q v) xs eq_refl eq_refl)|].
  split; [exact (biquad_obeys (set_b0 q v) xs eq_refl eq_refl)|].
  split; [exact (biquad_obeys (set_b1 q v) xs eq_refl eq_refl)|].
  split; [exact (biquad_obeys (set_b2 q v) xs eq_refl eq_refl)|].
  exact (biquad_obeys (set_a0 q v) xs eq_refl eq_refl).
Qed.
Lemma set_a0_refuted_lemma : exists q v xs, at_rest q /\ a0 (set_a0 q v) = v /\ v <> 0 /\
  ~ obeys v (a1 q) (a2 q) (b0 q) (b1 q) (b2 q) xs (snd (bq_filter (set_a0 q v) xs)).
Proof.
  exists bq_default, 2, [1]. split; [split; reflexivity|]. split; [reflexivity|]. split; [lra|].
  intros [_ H]. specialize (H 0%nat ltac:(simpl; lia)). unfold past in H; simpl in H. lra.
Qed.
