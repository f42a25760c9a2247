(** Property theorems C09-C15, C61, C62 about biquads and cascades. *)
From Coq Require Import Permutation.
From Verif Require Import RealBase RealBaseProofs Cplx SignalSpec BiquadModel BiquadSpec.
From Verif Require Import BiquadProofs StabilityProofs CascadeProofs.
Local Open Scope R_scope.

(** C09: a newly built biquad realises its difference equation... *)
Theorem C09_biquad_difference_equation :
  forall A0 A1 A2 B0 B1 B2, A0 <> 0 ->
  exists q, bq_coeffs A0 A1 A2 B0 B1 B2 = Ok q /\
    forall xs, obeys A0 A1 A2 B0 B1 B2 xs (snd (bq_filter q xs)).
Proof. exact difference_equation_lemma. Qed.

(** ... which determines the output completely... *)
Theorem C09_difference_equation_unique :
  forall A0 A1 A2 B0 B1 B2 xs ys ys', A0 <> 0 ->
  obeys A0 A1 A2 B0 B1 B2 xs ys -> obeys A0 A1 A2 B0 B1 B2 xs ys' -> ys = ys'.
Proof. exact obeys_unique_gen. Qed.

(** C09: a biquad that was given no coefficients passes the signal unchanged. *)
Theorem C09_default_biquad : forall xs, snd (bq_filter bq_default xs) = xs.
Proof.
  assert (G : forall xs q, b2 q = 0 -> b1 q = 0 -> b0 q = 1 -> a2 q = 0 -> a1 q = 0 -> w0 q = 0 -> w1 q = 0 -> snd (bq_filter q xs) = xs).
  { induction xs as [|x xs IH]; intros q E2 E1 E0 F2 F1 W0 W1; [reflexivity|]. unfold bq_filter in *. cbn [filter_with snd]. f_equal; [cbn; rewrite E0, W0; ring|].
    apply IH; cbn; auto; rewrite ?E2, ?E1, ?F2, ?F1, ?W1; ring. }
  intros xs. apply G; reflexivity.
Qed.

(** C09: a zero leading coefficient has no finite result. *)
Theorem C09_zero_a0_nonfinite :
  forall A1 A2 B0 B1 B2, bq_coeffs 0 A1 A2 B0 B1 B2 = NonFinite.
Proof. intros. unfold bq_coeffs. rewrite rdiv_zero. reflexivity. Qed.

(** C09 for a biquad reset at any time. *)
Theorem C09_reset_biquad_difference_equation :
  forall q xs, obeys 1 (a1 q) (a2 q) (b0 q) (b1 q) (b2 q) xs (snd (bq_filter (bq_reset q) xs)).
Proof. intros q xs. exact (biquad_obeys (bq_reset q) xs eq_refl eq_refl). Qed.

(** C10: linearity. *)
Theorem C10_biquad_linear :
  forall q a b xs ys, at_rest q -> length xs = length ys ->
  snd (bq_filter q (lincomb a b xs ys)) = lincomb a b (snd (bq_filter q xs)) (snd (bq_filter q ys)).
Proof. exact linear_rest_lemma. Qed.

(** C10: time invariance. *)
Theorem C10_biquad_time_invariant :
  forall q k xs, at_rest q -> snd (bq_filter q (repeat 0 k ++ xs)) = repeat 0 k ++ snd (bq_filter q xs).
Proof. intros q k xs [H0 H1]. exact (shift_lemma k xs q H0 H1). Qed.

(** C10: causality (from any state). *)
Theorem C10_biquad_causal :
  forall q xs n, snd (bq_filter q (firstn n xs)) = firstn n (snd (bq_filter q xs)).
Proof. exact causal_lemma. Qed.

(** C10: the output is the convolution of the input with the impulse response. *)
Theorem C10_biquad_convolution :
  forall q xs, at_rest q -> forall k, (k < length xs)%nat ->
  nth_error (snd (bq_filter q xs)) k =
  Some (convf (fun n => nth n (snd (bq_filter q (impulse k))) 0) (fun n => nth n xs 0) k).
Proof. intros q xs [H0 H1]. exact (impulse_lemma q xs H0 H1). Qed.

(** C11: any division into blocks gives the same output and the same final state. *)
Theorem C11_biquad_chunking :
  forall blocks q, filter_blocks q blocks = bq_filter q (concat blocks).
Proof. exact blocks_lemma. Qed.

(** C11: filtering a buffer onto itself is safe and gives the same samples. *)
Theorem C11_biquad_inplace :
  forall q buf, bq_filter_inplace q buf = Ok (bq_filter q buf).
Proof. exact bq_inplace_lemma. Qed.

(** C11: reset after any signal gives back the filter as constructed. *)
Theorem C11_biquad_reset :
  forall A0 A1 A2 B0 B1 B2 q xs, bq_coeffs A0 A1 A2 B0 B1 B2 = Ok q ->
  bq_reset (fst (bq_filter q xs)) = q /\ length (snd (bq_filter q xs)) = length xs.
Proof.
  intros A0 A1 A2 B0 B1 B2 q xs E. split; [|exact (bq_len q xs)].
  rewrite reset_after_lemma. unfold bq_coeffs in E.
  destruct (Req_EM_T A0 0) as [->|N]; [rewrite rdiv_zero in E; discriminate|].
  rewrite !rdiv_ok in E by auto. injection E; intros <-. reflexivity.
Qed.

(** C12: stability() is exactly "every pole is inside the unit circle". *)
Theorem C12_stability_iff_poles_inside :
  forall q, bq_stability q = true <-> (forall z, is_root (a1 q) (a2 q) z -> Cmod z < 1).
Proof. exact stability_lemma. Qed.

(** C12: there always are two poles, so the right-hand side is never vacuous. *)
Theorem C12_poles_exist :
  forall c1 c2, exists p q, forall z, (z * z + RtoC c1 * z + RtoC c2)%C = ((z - p) * (z - q))%C.
Proof.
  intros c1 c2. destruct (roots_exist c1 c2) as [p [q [H1 H2]]]. exists p, q.
  intros z. exact (root_of_factor c1 c2 p q z H1 H2).
Qed.

(** C13: a filter reported stable has bounded output for bounded input, for all time. *)
Theorem C13_stable_biquad_bounded :
  forall q, bq_stability q = true -> at_rest q ->
  exists G, 0 <= G /\ forall M xs, (forall x, In x xs -> Rabs x <= M) ->
    forall y, In y (snd (bq_filter q xs)) -> Rabs y <= G * M.
Proof. intros q HS [H0 H1]. exact (bibo_lemma q HS H0 H1). Qed.

(** C13 for cascades. *)
Theorem C13_stable_cascade_bounded :
  forall qs, (forall q, In q qs -> at_rest q /\ bq_stability q = true) ->
  exists G, 0 <= G /\ forall M xs, (forall x, In x xs -> Rabs x <= M) ->
    forall y, In y (through qs xs) -> Rabs y <= G * M.
Proof. exact cascade_bibo. Qed.

(** C14: a cascade of the pushed stages filters a signal like its stages one after the other. *)
Theorem C14_cascade_is_composition :
  forall n qs xs, (length qs <= n)%nat ->
  exists c c', cas_pushes (cas_new n) qs = Ok c /\ cas_size c = length qs /\ cas_capacity c = n /\
    cas_filter c xs = Ok (c', through qs xs) /\ cas_size c' = length qs /\ cas_capacity c' = n.
Proof. exact cascade_composition_lemma. Qed.

(** C14: pushing more stages than the capacity violates the checked precondition. *)
Theorem C14_cascade_overflow :
  forall n qs, (n < length qs)%nat -> cas_pushes (cas_new n) qs = UB.
Proof. exact pushes_overflow. Qed.

(** C14: from rest, the order of the stages does not matter. *)
Theorem C14_cascade_order_irrelevant :
  forall qs qs', Permutation qs qs' -> (forall q, In q qs -> at_rest q) ->
  forall xs, through qs xs = through qs' xs.
Proof. exact through_perm. Qed.

(** C14: reset() after any signal gives back the cascade as built from stages at rest. *)
Theorem C14_cascade_reset :
  forall n qs xs, (length qs <= n)%nat ->
  exists c c' ys, cas_pushes (cas_new n) qs = Ok c /\ cas_filter c xs = Ok (c', ys) /\
    cas_reset c' = cas_reset c /\
    ((forall q, In q qs -> at_rest q) -> cas_reset c = c).
Proof. exact cas_reset_lemma. Qed.

(** C14: clear() empties the cascade, which then passes signals unchanged. *)
Theorem C14_cascade_clear :
  forall n qs c xs, cas_pushes (cas_new n) qs = Ok c ->
  cas_size (cas_clear c) = 0%nat /\ cas_capacity (cas_clear c) = n /\
  cas_filter (cas_clear c) xs = Ok (cas_clear c, xs).
Proof. exact cas_clear_lemma. Qed.

(** C15, what biquad(pole, zero) realises: (z^-1 - zero) / (1 - pole z^-1). *)
Theorem C15_first_order_actual :
  forall p z, exists q, bq_pole_zero (RtoC p) (RtoC z) = Ok q /\ at_rest q /\
  forall w, tf_num (b0 q) (b1 q) (b2 q) w = (w * (C1 - RtoC z * w))%C /\
            tf_den (a1 q) (a2 q) w = (w * (w - RtoC p))%C.
Proof. exact first_order_lemma. Qed.

(** C15 holds up to the factor [- zero] for a zero at 1 or -1 (the only ones the
    library's own designers pass).  Missing: every other zero; see the refutation. *)
Theorem C15_first_order_unit_zero_partial :
  forall p z, z = 1 \/ z = -1 ->
  exists q, bq_pole_zero (RtoC p) (RtoC z) = Ok q /\
  forall w, tf_num (b0 q) (b1 q) (b2 q) w = (RtoC (- z) * w * (w - RtoC z))%C /\
            tf_den (a1 q) (a2 q) w = (w * (w - RtoC p))%C.
Proof. exact first_order_ok. Qed.

(** C15 is refuted for every other non-zero real zero: the zero lands at 1/zero. *)
Theorem C15_first_order_refuted :
  forall z, z <> 0 -> z * z <> 1 ->
  forall p, exists q, bq_pole_zero (RtoC p) (RtoC z) = Ok q /\
  tf_num (b0 q) (b1 q) (b2 q) (RtoC z) <> C0 /\ tf_num (b0 q) (b1 q) (b2 q) (RtoC (/ z)) = C0.
Proof. exact first_order_refuted_lemma. Qed.

(** C15: a zero at +1 (odd-order high-pass designs) comes with a negative gain. *)
Theorem C15_highpass_polarity_refuted :
  forall p, exists q, bq_pole_zero (RtoC p) (RtoC 1) = Ok q /\
  forall w, tf_num (b0 q) (b1 q) (b2 q) w = (- (w * (w - C1)))%C.
Proof. exact highpass_polarity. Qed.

(** C15: non-real arguments violate the checked precondition. *)
Theorem C15_first_order_nonreal :
  forall p z, Im p <> 0 \/ Im z <> 0 -> bq_pole_zero p z = UB.
Proof. exact pole_zero_complex. Qed.

(** C61: after a coefficient setter the (reset) filter obeys the difference equation with
    the new coefficient; set_a0 leaves the behaviour unchanged. *)
Theorem C61_setters :
  forall q v xs,
  obeys 1 v (a2 q) (b0 q) (b1 q) (b2 q) xs (snd (bq_filter (set_a1 q v) xs)) /\
  obeys 1 (a1 q) v (b0 q) (b1 q) (b2 q) xs (snd (bq_filter (set_a2 q v) xs)) /\
  obeys 1 (a1 q) (a2 q) v (b1 q) (b2 q) xs (snd (bq_filter (set_b0 q v) xs)) /\
  obeys 1 (a1 q) (a2 q) (b0 q) v (b2 q) xs (snd (bq_filter (set_b1 q v) xs)) /\
  obeys 1 (a1 q) (a2 q) (b0 q) (b1 q) v xs (snd (bq_filter (set_b2 q v) xs)) /\
  obeys 1 (a1 q) (a2 q) (b0 q) (b1 q) (b2 q) xs (snd (bq_filter (set_a0 q v) xs)).
Proof. exact setters_lemma. Qed.

(** C61: a setter changes the coefficient of its name, as read back, and no other one. *)
Theorem C61_getters q v :
  let reads p := (a0 p, a1 p, a2 p, b0 p, b1 p, b2 p) in
  reads (set_a0 q v) = (v, a1 q, a2 q, b0 q, b1 q, b2 q) /\
  reads (set_a1 q v) = (a0 q, v, a2 q, b0 q, b1 q, b2 q) /\
  reads (set_a2 q v) = (a0 q, a1 q, v, b0 q, b1 q, b2 q) /\
  reads (set_b0 q v) = (a0 q, a1 q, a2 q, v, b1 q, b2 q) /\
  reads (set_b1 q v) = (a0 q, a1 q, a2 q, b0 q, v, b2 q) /\
  reads (set_b2 q v) = (a0 q, a1 q, a2 q, b0 q, b1 q, v).
Proof. repeat split. Qed.

(** C61 is refuted for set_a0: a0() reports the new value but the filter ignores it. *)
Theorem C61_set_a0_refuted :
  exists q v xs, at_rest q /\ a0 (set_a0 q v) = v /\ v <> 0 /\
  ~ obeys v (a1 q) (a2 q) (b0 q) (b1 q) (b2 q) xs (snd (bq_filter (set_a0 q v) xs)).
Proof. exact set_a0_refuted_lemma. Qed.

(** C62: the pole/zero pair constructor has exactly those poles and zeros, and rejects
    pairs that are neither real nor conjugate. *)
Theorem C62_pole_zero_pairs :
  forall p1 z1 p2 z2,
  (valid_pair p1 p2 /\ valid_pair z1 z2 ->
   exists q, bq_pairs p1 z1 p2 z2 = Ok q /\ at_rest q /\
    forall z, tf_num (b0 q) (b1 q) (b2 q) z = ((z - z1) * (z - z2))%C /\
              tf_den (a1 q) (a2 q) z = ((z - p1) * (z - p2))%C) /\
  (~ (valid_pair p1 p2 /\ valid_pair z1 z2) -> bq_pairs p1 z1 p2 z2 = UB).
Proof. exact pairs_lemma. Qed.

(** Non-vacuity. *)
Example demo_stable : exists q, bq_coeffs 2 (-1) (1 / 2) 1 2 1 = Ok q /\ bq_stability q = true /\ at_rest q.
Proof.
  rewrite bq_coeffs_ok by lra. eexists; split; [reflexivity|]. split; [|split; reflexivity].
  apply stab_true; cbn [a1 a2]. split; apply Rabs_def1; lra.
Qed.
Example demo_unstable : exists q, bq_coeffs 1 0 2 1 0 0 = Ok q /\ bq_stability q = false.
Proof.
  rewrite bq_coeffs_ok by lra. eexists; split; [reflexivity|]. unfold bq_stability; cbn [a1 a2].
  destruct (Rlt_dec (Rabs (2 / 1)) 1) as [H|]; [|reflexivity]. apply Rabs_def2 in H; lra.
Qed.
Example demo_filter : forall q, bq_coeffs 1 (-1) 0 1 0 0 = Ok q -> snd (bq_filter q [1; 2; 3]) = [1; 3; 6].
Proof.
  intros q E. rewrite bq_coeffs_ok in E by lra. injection E; intros <-.
  unfold bq_filter; cbn [filter_with bq_tick fst snd b0 b1 b2 a1 a2 w0 w1]. repeat f_equal; lra.
Qed.
Example demo_pair : valid_pair (1 / 2, 1 / 3) (1 / 2, - (1 / 3)) /\ valid_pair (-1, 0) (-1, 0).
Proof. split; [right|left]; split; simpl; try lra. reflexivity. Qed.
Print Assumptions C09_biquad_difference_equation.
Print Assumptions C09_difference_equation_unique.
Print Assumptions C09_default_biquad.
Print Assumptions C09_zero_a0_nonfinite.
Print Assumptions C09_reset_biquad_difference_equation.
Print Assumptions C10_biquad_linear.
Print Assumptions C10_biquad_time_invariant.
Print Assumptions C10_biquad_causal.
Print Assumptions C10_biquad_convolution.
Print Assumptions C11_biquad_chunking.
Print Assumptions C11_biquad_inplace.
Print Assumptions C11_biquad_reset.
Print Assumptions C12_stability_iff_poles_inside.
Print Assumptions C12_poles_exist.
Print Assumptions C13_stable_biquad_bounded.
Print Assumptions C13_stable_cascade_bounded.
Print Assumptions C14_cascade_is_composition.
Print Assumptions C14_cascade_overflow.
Print Assumptions C14_cascade_order_irrelevant.
Print Assumptions C14_cascade_reset.
Print Assumptions C14_cascade_clear.
Print Assumptions C15_first_order_actual.
Print Assumptions C15_first_order_unit_zero_partial.
Print Assumptions C15_first_order_refuted.
Print Assumptions C15_highpass_polarity_refuted.
Print Assumptions C15_first_order_nonreal.
Print Assumptions C61_setters.
Print Assumptions C61_getters.
Print Assumptions C61_set_a0_refuted.
Print Assumptions C62_pole_zero_pairs.
