From Coq Require Import Permutation Psatz.
From Verif Require Import RealBase RealBaseProofs BaseProofs Cplx CplxProofs SignalSpec BiquadModel BiquadSpec BiquadProofs StabilityProofs.
Local Open Scope R_scope.

(** A sample through a list of sections. *)
Fixpoint chain_tick (qs : list biquad) (x : R) : list biquad * R :=
  match qs with
  | [] => ([], x)
  | q :: t => let p := bq_tick q x in let r := chain_tick t (snd p) in (fst p :: fst r, snd r)
  end.

Lemma chain_length qs : forall x, length (fst (chain_tick qs x)) = length qs.
Proof. induction qs as [|q qs IH]; intros x; simpl; auto. Qed.

Lemma stages_tick_chain qs rest : forall x,
  stages_tick (length qs) (qs ++ rest) x = Ok (fst (chain_tick qs x) ++ rest, snd (chain_tick qs x)).
Proof.
  induction qs as [|q qs IH]; intros x; simpl; [reflexivity|]. rewrite IH. reflexivity.
Qed.

Lemma cas_filter_chain xs : forall qs rest,
  cas_filter (mkCas (length qs) (qs ++ rest)) xs =
  Ok (mkCas (length qs) (fst (filter_with chain_tick qs xs) ++ rest), snd (filter_with chain_tick qs xs)).
Proof.
  induction xs as [|x xs IH]; intros qs rest; [reflexivity|].
  cbn [cas_filter filter_with]. unfold cas_tick. cbn [num_stage stages]. rewrite stages_tick_chain.
  cbn [bind fst snd]. rewrite <- (chain_length qs x). rewrite IH. reflexivity.
Qed.

Lemma chain_cons xs : forall q qs,
  filter_with chain_tick (q :: qs) xs =
  (fst (bq_filter q xs) :: fst (filter_with chain_tick qs (snd (bq_filter q xs))),
   snd (filter_with chain_tick qs (snd (bq_filter q xs)))).
Proof.
  induction xs as [|x xs IH]; intros q qs; [reflexivity|].
  cbn [filter_with bq_filter]. cbn [chain_tick fst snd]. rewrite IH. reflexivity.
Qed.
Lemma chain_nil xs : filter_with chain_tick [] xs = ([], xs).
Proof. induction xs as [|x xs IH]; [reflexivity|]. cbn [filter_with chain_tick fst snd]. rewrite IH. reflexivity. Qed.

Lemma chain_through qs : forall xs, snd (filter_with chain_tick qs xs) = through qs xs.
Proof.
  induction qs as [|q qs IH]; intros xs; [rewrite chain_nil; reflexivity|].
  rewrite chain_cons. cbn [snd]. rewrite IH. reflexivity.
Qed.

Lemma store_app_len {A} (l : list A) x r v : store (l ++ x :: r) (length l) v = Ok (l ++ v :: r).
Proof. induction l as [|y l IH]; simpl; [reflexivity|]. rewrite IH. reflexivity. Qed.

Lemma pushes_lemma n qs : forall pre, (length pre + length qs <= n)%nat ->
  cas_pushes (mkCas (length pre) (pre ++ repeat bq_default (n - length pre))) qs =
  Ok (mkCas (length pre + length qs) ((pre ++ qs) ++ repeat bq_default (n - (length pre + length qs)))).
Proof.
  induction qs as [|q qs IH]; intros pre Hn; cbn [cas_pushes length].
  - rewrite Nat.add_0_r, app_nil_r. reflexivity.
  - unfold cas_push_back. cbn [num_stage stages]. rewrite app_length, repeat_length.
    cbn [length] in Hn.
    destruct (Nat.ltb_spec (length pre) (length pre + (n - length pre))) as [L|L]; [|lia].
    replace (n - length pre)%nat with (S (n - (length pre + 1))) by lia. cbn [repeat].
    rewrite store_app_len. cbn [bind].
    specialize (IH (pre ++ [q])). rewrite app_length in IH. cbn [length] in IH.
    rewrite <- !app_assoc in IH. cbn [app] in IH. rewrite IH by lia.
    replace (length pre + 1 + length qs)%nat with (length pre + S (length qs))%nat by lia.
    rewrite <- app_assoc. reflexivity.
Qed.

Lemma pushes_new n qs : (length qs <= n)%nat ->
  cas_pushes (cas_new n) qs = Ok (mkCas (length qs) (qs ++ repeat bq_default (n - length qs))).
Proof.
  intros H. pose proof (pushes_lemma n qs [] H) as E. simpl in E. rewrite Nat.sub_0_r in E. exact E.
Qed.

Lemma pushes_app c q1 q2 : cas_pushes c (q1 ++ q2) = bind (cas_pushes c q1) (fun c' => cas_pushes c' q2).
Proof.
  revert c; induction q1 as [|q q1 IH]; intros c; simpl; [reflexivity|].
  destruct (cas_push_back c q) as [c'| |]; simpl; auto.
Qed.

Lemma pushes_overflow n qs : (n < length qs)%nat -> cas_pushes (cas_new n) qs = UB.
Proof.
  intros H. rewrite <- (firstn_skipn n qs), pushes_app.
  rewrite pushes_new by (rewrite firstn_length; lia). rewrite firstn_length, Nat.min_l by lia.
  destruct (skipn n qs) as [|q t] eqn:E.
  - apply (f_equal (@length _)) in E. rewrite skipn_length in E. simpl in E. lia.
  - cbn [bind cas_pushes]. unfold cas_push_back. cbn [num_stage stages].
    rewrite app_length, repeat_length, firstn_length.
    destruct (Nat.ltb_spec n (Nat.min n (length qs) + (n - n))) as [L|L]; [lia|]. reflexivity.
Qed.

Lemma cascade_composition_lemma n qs xs : (length qs <= n)%nat ->
  exists c c', cas_pushes (cas_new n) qs = Ok c /\ cas_size c = length qs /\ cas_capacity c = n /\
    cas_filter c xs = Ok (c', through qs xs) /\ cas_size c' = length qs /\ cas_capacity c' = n.
Proof.
  intros H. eexists; eexists. split; [apply pushes_new; exact H|].
  split; [reflexivity|]. split; [unfold cas_capacity; cbn [stages]; rewrite app_length, repeat_length; lia|].
  rewrite cas_filter_chain, chain_through. split; [reflexivity|]. split; [reflexivity|].
  unfold cas_capacity; cbn [stages]. rewrite app_length, repeat_length.
  assert (E : forall ys l, length (fst (filter_with chain_tick l ys)) = length l).
  { induction ys as [|y ys IH]; intros l; [reflexivity|]. cbn [filter_with fst]. rewrite IH. apply chain_length. }
  rewrite E. lia.
Qed.

(** ** Order of the sections *)
Lemma bq_len q xs : length (snd (bq_filter q xs)) = length xs.
Proof. apply filter_length. Qed.

Lemma swap_lemma q r xs : w0 q = 0 -> w1 q = 0 -> w0 r = 0 -> w1 r = 0 ->
  snd (bq_filter r (snd (bq_filter q xs))) = snd (bq_filter q (snd (bq_filter r xs))).
Proof.
  intros Hq0 Hq1 Hr0 Hr1. apply seqof_ext; [rewrite !bq_len; reflexivity|]. rewrite !bq_len.
  set (N := length xs).
  assert (HN : forall q, eqN N (P 1 (a1 q) (a2 q) (seqof (snd (bq_filter q xs)))) (P (b0 q) (b1 q) (b2 q) (seqof xs)) \/ ~ (w0 q = 0 /\ w1 q = 0)).
  { intros s. destruct (Req_dec (w0 s) 0); [destruct (Req_dec (w1 s) 0)|]; try tauto. left.
    apply (proj1 (obeys_P _ _ _ _ _ _ _ _) (biquad_obeys s xs H H0)). }
  destruct (HN q) as [Eq|]; [|tauto]. destruct (HN r) as [Er|]; [|tauto]. clear HN.
  pose proof (proj1 (obeys_P _ _ _ _ _ _ _ _) (biquad_obeys r (snd (bq_filter q xs)) Hr0 Hr1)) as [_ Erq].
  pose proof (proj1 (obeys_P _ _ _ _ _ _ _ _) (biquad_obeys q (snd (bq_filter r xs)) Hq0 Hq1)) as [_ Eqr].
  rewrite bq_len in Erq, Eqr. fold N in Erq, Eqr.
  apply (P_unique N (a1 q) (a2 q)), (P_unique N (a1 r) (a2 r)).
  (* left: A_r A_q y = A_q A_r y = A_q B_r v = B_r A_q v = B_r B_q x *)
  eapply eqN_trans; [apply P_comm|].
  eapply eqN_trans; [apply eqN_P; exact Erq|].
  eapply eqN_trans; [apply P_comm|].
  eapply eqN_trans; [apply eqN_P; exact Eq|].
  apply eqN_sym.
  eapply eqN_trans; [apply eqN_P; exact Eqr|].
  eapply eqN_trans; [apply P_comm|].
  eapply eqN_trans; [apply eqN_P; exact Er|].
  apply P_comm.
Qed.

Lemma through_perm qs qs' : Permutation qs qs' -> (forall q, In q qs -> at_rest q) ->
  forall xs, through qs xs = through qs' xs.
Proof.
  induction 1 as [|q l l' HP IH|q r l|l1 l2 l3 H1 IH1 H2 IH2]; intros HR xs.
  - reflexivity.
  - unfold through; simpl. apply IH. intros; apply HR; right; auto.
  - unfold through; simpl. f_equal.
    destruct (HR q (or_intror (or_introl eq_refl))) as [A B]. destruct (HR r (or_introl eq_refl)) as [D E].
    apply swap_lemma; auto.
  - rewrite IH1 by auto. apply IH2. intros q Hq. apply HR. eapply Permutation_in; [apply Permutation_sym; exact H1|exact Hq].
Qed.

(** ** reset and clear *)
Lemma chain_coeffs xs : forall qs, Forall2 same_coeffs (fst (filter_with chain_tick qs xs)) qs.
Proof.
  intros qs; revert xs; induction qs as [|q qs IH]; intros xs.
  - rewrite chain_nil. constructor.
  - rewrite chain_cons. cbn [fst]. constructor; [apply filter_coeffs|apply IH].
Qed.

Lemma Forall2_len {A B} (Q : A -> B -> Prop) l l' : Forall2 Q l l' -> length l = length l'.
Proof. induction 1; simpl; auto. Qed.

Lemma cas_reset_lemma n qs xs : (length qs <= n)%nat ->
  exists c c' ys, cas_pushes (cas_new n) qs = Ok c /\ cas_filter c xs = Ok (c', ys) /\
    cas_reset c' = cas_reset c /\
    ((forall q, In q qs -> at_rest q) -> cas_reset c = c).
Proof.
  intros H. eexists; eexists; eexists. split; [apply pushes_new; exact H|].
  rewrite cas_filter_chain. split; [reflexivity|]. pose proof (chain_coeffs xs qs) as F.
  pose proof (Forall2_len _ _ _ F) as FL.
  unfold cas_reset; cbn [num_stage stages]. split.
  - f_equal. rewrite <- FL at 1 3. rewrite !firstn_app, !skipn_app, !firstn_all, !skipn_all, !Nat.sub_diag.
    cbn [firstn skipn app]. rewrite !app_nil_r. f_equal.
    clear FL H. induction F as [|a b l l' Hab F IH]; simpl; [reflexivity|]. rewrite IH. f_equal. apply reset_eq; auto.
  - intros HR. f_equal. rewrite firstn_app, skipn_app, firstn_all, skipn_all, Nat.sub_diag.
    cbn [firstn skipn app]. rewrite app_nil_r. f_equal.
    rewrite <- (map_id qs) at 2. apply map_ext_in. intros q Hq. destruct (HR q Hq) as [A B].
    unfold bq_reset. destruct q; simpl in *; subst; reflexivity.
Qed.

Lemma cas_clear_lemma n qs c xs : cas_pushes (cas_new n) qs = Ok c ->
  cas_size (cas_clear c) = 0%nat /\ cas_capacity (cas_clear c) = n /\
  cas_filter (cas_clear c) xs = Ok (cas_clear c, xs).
Proof.
  intros E. destruct (le_lt_dec (length qs) n) as [L|L].
  - rewrite pushes_new in E by auto. injection E; intros <-. split; [reflexivity|].
    split; [unfold cas_capacity, cas_clear; cbn [stages]; rewrite app_length, repeat_length; lia|].
    pose proof (cas_filter_chain xs [] (qs ++ repeat bq_default (n - length qs))) as Q.
    cbn [length app] in Q. unfold cas_clear; cbn [stages]. rewrite Q, chain_nil. reflexivity.
  - rewrite pushes_overflow in E by auto. discriminate.
Qed.

(** A cascade of stable sections at rest is bounded. *)
Lemma cascade_bibo qs : (forall q, In q qs -> at_rest q /\ bq_stability q = true) ->
  exists G, 0 <= G /\ forall M xs, (forall x, In x xs -> Rabs x <= M) ->
    forall y, In y (through qs xs) -> Rabs y <= G * M.
Proof.
  induction qs as [|q qs IH]; intros H.
  - exists 1. split; [lra|]. intros M xs HM y Hy. rewrite Rmult_1_l. apply HM, Hy.
  - destruct (H q (or_introl eq_refl)) as [[Q0 Q1] QS].
    destruct (bibo_lemma q QS Q0 Q1) as [G1 [HG1 HB1]].
    destruct IH as [G2 [HG2 HB2]]; [intros; apply H; right; auto|].
    exists (G2 * G1). split; [nra|]. intros M xs HM y Hy.
    unfold through in Hy; cbn [fold_left] in Hy. fold (through qs (snd (bq_filter q xs))) in Hy.
    rewrite Rmult_assoc. apply (HB2 (G1 * M) (snd (bq_filter q xs))); auto.
    intros x Hx. apply (HB1 M xs); auto.
Qed.

(** ** Constructors *)
Lemma pole_zero_lemma p z :
  bq_pole_zero (RtoC p) (RtoC z) = Ok (mkBq 0 1 (- z) 0 (- p) 1 0 0).
Proof.
  unfold bq_pole_zero, RtoC; simpl. destruct (Req_EM_T 0 0); [reflexivity|lra].
Qed.
Lemma pole_zero_complex p z : Im p <> 0 \/ Im z <> 0 -> bq_pole_zero p z = UB.
Proof.
  unfold bq_pole_zero. intros H. destruct (Req_EM_T (Im p) 0); [|reflexivity].
  destruct (Req_EM_T (Im z) 0); [tauto|reflexivity].
Qed.

Lemma pair_coeffs_ok p q : valid_pair p q ->
  exists c1 c2, pair_coeffs p q = Ok (c1, c2) /\ RtoC (- c1) = Cadd p q /\ RtoC c2 = Cmul p q.
Proof.
  intros [[H1 H2]|[H1 ->]]; unfold pair_coeffs.
  - destruct (Req_EM_T (Im p) 0); [|contradiction]. destruct (Req_EM_T (Im q) 0); [|contradiction].
    eexists; eexists; split; [reflexivity|]. destruct p, q; simpl in *; subst. split; apply C_eq; simpl; ring.
  - destruct (Req_EM_T (Im p) 0); [contradiction|]. simpl.
    destruct (Req_EM_T (Re p) (Re p)) as [_|N]; [|congruence].
    destruct (Req_EM_T (- Im p) (- Im p)) as [_|N]; [|congruence].
    eexists; eexists; split; [reflexivity|]. destruct p; unfold Cnorm2; simpl in *. split; apply C_eq; simpl; ring.
Qed.
Lemma pair_coeffs_bad p q : ~ valid_pair p q -> pair_coeffs p q = UB.
Proof.
  intros H. unfold pair_coeffs. destruct (Req_EM_T (Im p) 0).
  - destruct (Req_EM_T (Im q) 0); [|reflexivity]. exfalso; apply H; left; auto.
  - destruct (Req_EM_T (Re q) (Re p)); [|reflexivity]. destruct (Req_EM_T (Im q) (- Im p)); [|reflexivity].
    exfalso; apply H; right. split; auto. apply C_eq; auto.
Qed.

Lemma valid_pair_dec p q : {valid_pair p q} + {~ valid_pair p q}.
Proof.
  unfold valid_pair. destruct (Req_EM_T (Im p) 0).
  - destruct (Req_EM_T (Im q) 0); [left; auto|right; intuition].
  - destruct (C_dec q (Cconj p)); [left; auto|right; intuition].
Qed.

Lemma pairs_lemma p1 z1 p2 z2 :
  (valid_pair p1 p2 /\ valid_pair z1 z2 ->
   exists q, bq_pairs p1 z1 p2 z2 = Ok q /\ at_rest q /\
    forall z, tf_num (b0 q) (b1 q) (b2 q) z = ((z - z1) * (z - z2))%C /\
              tf_den (a1 q) (a2 q) z = ((z - p1) * (z - p2))%C) /\
  (~ (valid_pair p1 p2 /\ valid_pair z1 z2) -> bq_pairs p1 z1 p2 z2 = UB).
Proof.
  split.
  - intros [H1 H2]. destruct (pair_coeffs_ok _ _ H1) as [c1 [c2 [E1 [S1 P1]]]].
    destruct (pair_coeffs_ok _ _ H2) as [d1 [d2 [E2 [S2 P2]]]].
    unfold bq_pairs. rewrite E1, E2. cbn [bind fst snd].
    eexists; split; [reflexivity|]. split; [split; reflexivity|]. cbn [b0 b1 b2 a1 a2].
    intros z. unfold tf_num, tf_den. split.
    + rewrite <- (root_of_factor d1 d2) by auto. apply C_eq; simpl; ring.
    + rewrite <- (root_of_factor c1 c2) by auto. reflexivity.
  - intros H. unfold bq_pairs. destruct (valid_pair_dec p1 p2) as [V|V].
    + destruct (pair_coeffs_ok _ _ V) as [c1 [c2 [E1 _]]]. rewrite E1. cbn [bind].
      destruct (valid_pair_dec z1 z2) as [V2|V2]; [tauto|]. rewrite pair_coeffs_bad by auto. reflexivity.
    + rewrite pair_coeffs_bad by auto. reflexivity.
Qed.

(** (z, 1) scaled: what biquad(pole, zero) realises. *)
Lemma first_order_lemma p z : exists q, bq_pole_zero (RtoC p) (RtoC z) = Ok q /\ at_rest q /\
  forall w, tf_num (b0 q) (b1 q) (b2 q) w = (w * (C1 - RtoC z * w))%C /\
            tf_den (a1 q) (a2 q) w = (w * (w - RtoC p))%C.
Proof.
  rewrite pole_zero_lemma. eexists; split; [reflexivity|]. split; [split; reflexivity|].
  cbn [b0 b1 b2 a1 a2]. intros w. unfold tf_num, tf_den. split; apply C_eq; destruct w; simpl; ring.
Qed.

Lemma first_order_ok p z : z = 1 \/ z = -1 ->
  exists q, bq_pole_zero (RtoC p) (RtoC z) = Ok q /\
  forall w, tf_num (b0 q) (b1 q) (b2 q) w = (RtoC (- z) * w * (w - RtoC z))%C /\
            tf_den (a1 q) (a2 q) w = (w * (w - RtoC p))%C.
Proof.
  intros H. destruct (first_order_lemma p z) as [q [E [_ F]]]. exists q; split; [exact E|].
  intros w. destruct (F w) as [-> ->]. split; [|reflexivity].
  destruct H; subst; destruct w; apply C_eq; simpl; ring.
Qed.

Lemma first_order_refuted_lemma z : z <> 0 -> z * z <> 1 ->
  forall p, exists q, bq_pole_zero (RtoC p) (RtoC z) = Ok q /\
  tf_num (b0 q) (b1 q) (b2 q) (RtoC z) <> C0 /\ tf_num (b0 q) (b1 q) (b2 q) (RtoC (/ z)) = C0.
Proof.
  intros Hz H1 p. destruct (first_order_lemma p z) as [q [E [_ F]]]. exists q; split; [exact E|].
  rewrite !(proj1 (F _)). split.
  - apply Cmul_neq0; [apply RtoC_neq0; auto|]. intros Q. apply (f_equal Re) in Q. simpl in Q. apply H1. lra.
  - apply C_eq; simpl; field; auto.
Qed.

Lemma highpass_polarity p : exists q, bq_pole_zero (RtoC p) (RtoC 1) = Ok q /\
  forall w, tf_num (b0 q) (b1 q) (b2 q) w = (- (w * (w - C1)))%C.
Proof.
  destruct (first_order_lemma p 1) as [q [E [_ F]]]. exists q; split; [exact E|].
  intros w. rewrite (proj1 (F w)). destruct w; apply C_eq; simpl; ring.
Qed.
