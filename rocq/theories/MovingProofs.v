From Verif Require Import RealBase RealBaseProofs BaseProofs RingModel RingProofs MovingModel SignalSpec MovingSpec.
Local Open Scope R_scope.

(** ** std::transform *)
Lemma transform_app {S X Y} (tick : S -> X -> res (S * Y)) xs ys s :
  transform tick s (xs ++ ys) =
  bind (transform tick s xs) (fun p => bind (transform tick (fst p) ys)
    (fun q => Ok (fst q, snd p ++ snd q))).
Proof.
  revert s; induction xs as [|x xs IH]; intros s; simpl.
  - destruct (transform tick s ys) as [[s' y]| |]; reflexivity.
  - destruct (tick s x) as [[s1 y1]| |]; simpl; try reflexivity.
    rewrite IH. destruct (transform tick s1 xs) as [[s2 y2]| |]; simpl; try reflexivity.
    destruct (transform tick s2 ys) as [[s3 y3]| |]; reflexivity.
Qed.

(** If every tick from a state described by [l] succeeds with value [out (next l x)] and
    leaves a state described by [next l x], the k-th output is [out] of the k-th description. *)
Lemma transform_trace {S X Y L} (tick : S -> X -> res (S * Y)) (R : S -> L -> Prop)
    (next : L -> X -> L) (out : L -> Y) :
  (forall s l x, R s l -> exists s', tick s x = Ok (s', out (next l x)) /\ R s' (next l x)) ->
  forall xs s l, R s l ->
  exists s' ys, transform tick s xs = Ok (s', ys) /\ length ys = length xs /\
    R s' (fold_left next xs l) /\
    forall k, (k < length xs)%nat -> nth_error ys k = Some (out (fold_left next (firstn (k + 1) xs) l)).
Proof.
  intros Htick xs; induction xs as [|x xs IH]; intros s l HR.
  - exists s, []; simpl; repeat split; auto. intros k Hk; lia.
  - destruct (Htick s l x HR) as [s1 [E1 R1]].
    destruct (IH s1 (next l x) R1) as [s2 [ys [E2 [L2 [R2 N2]]]]].
    exists s2, (out (next l x) :: ys). simpl. rewrite E1; simpl; rewrite E2; simpl.
    repeat split; auto. intros k Hk. destruct k as [|k]; [reflexivity|].
    simpl. apply N2; lia.
Qed.

(** ** Window of the last [n] values *)
Definition shift (l : list R) (x : R) : list R := tl l ++ [x].

Lemma shift_length l x : (0 < length l)%nat -> length (shift l x) = length l.
Proof. unfold shift; destruct l; simpl; intros; [lia|]. rewrite app_length; simpl; lia. Qed.

Lemma fold_shift xs : forall l, (0 < length l)%nat ->
  fold_left shift xs l = skipn (length xs) (l ++ xs).
Proof.
  induction xs as [|x xs IH]; intros l Hl; [simpl; now rewrite app_nil_r|].
  cbn [fold_left length]. rewrite IH by (rewrite shift_length; auto).
  destruct l as [|a l]; [simpl in Hl; lia|]. unfold shift; simpl. rewrite <- app_assoc. reflexivity.
Qed.

Lemma nth_skipn {A} (l : list A) n i d : nth i (skipn n l) d = nth (n + i) l d.
Proof. revert l; induction n as [|n IH]; intros [|x l]; simpl; auto. destruct i; reflexivity. Qed.
Lemma nth_firstn {A} (l : list A) n i d : (i < n)%nat -> nth i (firstn n l) d = nth i l d.
Proof.
  revert l i; induction n as [|n IH]; intros l i Hi; [lia|].
  destruct l as [|x l]; [reflexivity|]. destruct i as [|i]; [reflexivity|]. simpl; apply IH; lia.
Qed.
Lemma nth_repeat' {A} (v : A) n i : nth i (repeat v n) v = v.
Proof. revert i; induction n as [|n IH]; intros [|i]; simpl; auto. Qed.

Lemma window_sum_past f n xs k : f 0 = 0 -> (0 < n)%nat -> (k < length xs)%nat ->
  rsum (map f (fold_left shift (firstn (k + 1) xs) (repeat 0 n))) = sumf (fun j => f (past xs k j)) n.
Proof.
  intros Hf Hn Hk. rewrite fold_shift by (rewrite repeat_length; lia).
  rewrite rsum_sumf, map_length, skipn_length, app_length, repeat_length, firstn_length.
  replace (n + Nat.min (k + 1) (length xs) - Nat.min (k + 1) (length xs))%nat with n by lia.
  rewrite sumf_rev. apply sumf_ext; intros j Hj.
  match goal with |- nth ?i (map f ?l) 0 = _ => transitivity (nth i (map f l) (f 0)); [rewrite Hf; reflexivity|] end.
  rewrite map_nth. f_equal.
  rewrite nth_skipn. unfold past.
  replace (Nat.min (k + 1) (length xs)) with (k + 1)%nat by lia.
  destruct (Nat.leb_spec j k) as [L|L].
  - rewrite app_nth2 by (rewrite repeat_length; lia). rewrite repeat_length.
    rewrite nth_firstn by lia. f_equal; lia.
  - rewrite app_nth1 by (rewrite repeat_length; lia). apply nth_repeat'.
Qed.

(** ** The running sum *)
Definition full_state (n : nat) (m : mfilter) (l : list R) : Prop :=
  repr (window m) l /\ length l = n /\ rcap (window m) = n /\ accumulated m = rsum l.

Lemma full_state_new n : (0 < n)%nat -> full_state n (m_new n) (repeat 0 n).
Proof.
  intros Hn. unfold full_state, m_new; simpl.
  split; [apply repr_filled|]. rewrite repeat_length, rsum_repeat. repeat split; try lra.
Qed.

Lemma rsum_shift l x : (0 < length l)%nat -> rsum (shift l x) = rsum l - hd 0 l + x.
Proof. destruct l as [|a l]; simpl; intros; [lia|]. unfold shift; simpl. rewrite rsum_app; simpl; lra. Qed.

Lemma repr_size (r : ring R) l : repr r l -> size r = length l.
Proof. intros [_ [H _]]; unfold size; lia. Qed.

Lemma ma_tick_full n m l x : (0 < n)%nat -> full_state n m l ->
  exists m', ma_tick m x = Ok (m', rsum (shift l x) / INR n) /\ full_state n m' (shift l x).
Proof.
  intros Hn [HR [HL [HC HA]]].
  destruct l as [|a l]; [simpl in HL; lia|].
  unfold ma_tick. rewrite (front_repr _ _ a l HR eq_refl). simpl bind.
  destruct (push_back_repr _ _ x HR ltac:(lia)) as [w [E [Ec Rw]]].
  rewrite E. simpl bind.
  rewrite HL, HC, Nat.ltb_irrefl in Rw. fold (shift (a :: l) x) in Rw.
  pose proof (shift_length (a :: l) x ltac:(simpl; lia)) as HS.
  rewrite (repr_size _ _ Rw), HS, HL. rewrite rdiv_ok by auto. simpl bind.
  pose proof (rsum_shift (a :: l) x ltac:(simpl; lia)) as HE. simpl hd in HE.
  eexists; split.
  - rewrite HE, <- HA. reflexivity.
  - unfold full_state; cbn [window accumulated]. split; [exact Rw|].
    split; [lia|]. split; [lia|]. rewrite HE, <- HA. reflexivity.
Qed.

Lemma moving_average_lemma n xs : (0 < n)%nat ->
  exists m ys, transform ma_tick (m_new n) xs = Ok (m, ys) /\ length ys = length xs /\
    forall k, (k < length xs)%nat -> nth_error ys k = Some (window_mean (fun x => x) n xs k).
Proof.
  intros Hn.
  destruct (transform_trace ma_tick (full_state n) shift (fun l => rsum l / INR n)
              (fun s l x H => ma_tick_full n s l x Hn H) xs (m_new n) (repeat 0 n) (full_state_new n Hn))
    as [m [ys [E [L [_ N]]]]].
  exists m, ys; repeat split; auto. intros k Hk. rewrite (N k Hk). f_equal.
  unfold window_mean. rewrite <- (window_sum_past (fun x => x)) by auto. rewrite map_id. reflexivity.
Qed.

(** ** Moving RMS: the window holds squares *)
Definition rms_state (n : nat) (m : mfilter) (l : list R) : Prop :=
  full_state n m (map (fun x => x * x) l).

Lemma map_shift f l x : map f (shift l x) = shift (map f l) (f x).
Proof. unfold shift. rewrite map_app. destruct l; reflexivity. Qed.

Lemma rsum_squares_nonneg l : 0 <= rsum (map (fun x => x * x) l).
Proof.
  apply rsum_nonneg. intros y Hy. apply in_map_iff in Hy. destruct Hy as [x [<- _]]. nra.
Qed.

Lemma div_nonneg a b : 0 <= a -> 0 < b -> 0 <= a / b.
Proof. intros; apply Rmult_le_pos; [lra|]. left; apply Rinv_0_lt_compat; lra. Qed.

Lemma mr_tick_full n m l x : (0 < n)%nat -> rms_state n m l ->
  exists m', mr_tick m x = Ok (m', sqrt (rsum (map (fun x => x * x) (shift l x)) / INR n)) /\
             rms_state n m' (shift l x).
Proof.
  intros Hn H. unfold rms_state in *.
  destruct (ma_tick_full n m _ (x * x) Hn H) as [m' [E F]].
  unfold ma_tick in E. unfold mr_tick. rewrite map_shift.
  destruct (front (window m)) as [f| |]; simpl in *; try discriminate.
  destruct (push_back (window m) (x * x)) as [w| |]; simpl in *; try discriminate.
  destruct (rdiv (accumulated m - f + x * x) (INR (size w))) as [q| |]; simpl in *; try discriminate.
  inversion E; subst. rewrite rsqrt_ok.
  - simpl. eexists; split; [reflexivity|exact F].
  - rewrite <- (map_shift (fun x => x * x)). apply div_nonneg; auto. apply rsum_squares_nonneg.
Qed.

Lemma moving_rms_lemma n xs : (0 < n)%nat ->
  exists m ys, transform mr_tick (m_new n) xs = Ok (m, ys) /\ length ys = length xs /\
    forall k, (k < length xs)%nat -> nth_error ys k = Some (sqrt (window_mean (fun x => x * x) n xs k)).
Proof.
  intros Hn.
  assert (H0 : rms_state n (m_new n) (repeat 0 n)).
  { unfold rms_state.
    replace (map (fun x => x * x) (repeat 0 n)) with (repeat 0 n); [apply full_state_new; auto|].
    rewrite <- (map_id (repeat 0 n)) at 1. apply map_ext_in. intros a Ha. apply repeat_spec in Ha. subst; lra. }
  destruct (transform_trace mr_tick (rms_state n) shift (fun l => sqrt (rsum (map (fun x => x * x) l) / INR n))
              (fun s l x H => mr_tick_full n s l x Hn H) xs (m_new n) (repeat 0 n) H0)
    as [m [ys [E [L [_ N]]]]].
  exists m, ys; repeat split; auto. intros k Hk. rewrite (N k Hk). do 2 f_equal.
  unfold window_mean. rewrite <- (window_sum_past (fun x => x * x)) by (auto; lra). reflexivity.
Qed.

(** ** After reset()/resize(): an empty window on a stale accumulator *)

(** [m] has seen [zs] since it was emptied with accumulator [a] and stale first cell [c]. *)
Definition stale_state (n : nat) (a c : R) (m : mfilter) (zs : list R) : Prop :=
  repr (window m) (recent n zs) /\ rcap (window m) = n /\
  match zs with
  | [] => accumulated m = a /\ front (window m) = Ok c
  | z :: t => accumulated m = rsum (recent n zs) + (a - c) - INR (Nat.min (length t) (n - 1)) * z
  end.

Lemma recent_snoc {A} n (zs : list A) x : (0 < n)%nat ->
  recent n (zs ++ [x]) = if (length (recent n zs) <? n)%nat then recent n zs ++ [x] else tl (recent n zs) ++ [x].
Proof.
  intros Hn. unfold recent. rewrite skipn_length, app_length. simpl.
  destruct (Nat.ltb_spec (length zs - (length zs - n)) n) as [L|L].
  - replace (length zs + 1 - n)%nat with 0%nat by lia. replace (length zs - n)%nat with 0%nat by lia. reflexivity.
  - rewrite skipn_app. replace (length zs + 1 - n - length zs)%nat with 0%nat by lia. simpl.
    f_equal. replace (length zs + 1 - n)%nat with (S (length zs - n)) by lia.
    generalize (length zs - n)%nat as k. clear. intros k; revert zs; induction k as [|k IH]; intros [|z zs]; auto. exact (IH zs).
Qed.

Lemma recent_length {A} n (zs : list A) : length (recent n zs) = Nat.min n (length zs).
Proof. unfold recent; rewrite skipn_length; lia. Qed.

Lemma ma_tick_stale n a c m zs x : (0 < n)%nat -> stale_state n a c m zs ->
  exists m', ma_tick m x = Ok (m', after_reset n a c (zs ++ [x])) /\ stale_state n a c m' (zs ++ [x]).
Proof.
  intros Hn [HR [HC HA]].
  destruct (push_back_repr _ _ x HR ltac:(lia)) as [w [E [Ec Rw]]].
  rewrite HC, <- recent_snoc in Rw by auto.
  assert (HF : exists f, front (window m) = Ok f /\
     forall z t, zs ++ [x] = z :: t ->
     accumulated m - f + x = rsum (recent n (zs ++ [x])) + (a - c) - INR (Nat.min (length t) (n - 1)) * z).
  { destruct zs as [|z t].
    - destruct HA as [HA HF]. exists c; split; [exact HF|]. intros z t Ez. simpl in Ez. injection Ez; intros <- <-.
      unfold recent. replace (length ([] ++ [x]) - n)%nat with 0%nat by (cbn [app length]; lia).
      cbn [length Nat.min INR app skipn rsum]. rewrite HA. lra.
    - assert (Hlen : length (recent n (z :: t)) = Nat.min n (S (length t))) by exact (recent_length n (z :: t)).
      destruct (recent n (z :: t)) as [|f l] eqn:Er; [simpl in Hlen; lia|].
      exists f; split; [apply (front_repr _ _ f l HR eq_refl)|].
      intros z' t' Ez. simpl in Ez. inversion Ez; subst z' t'. clear Ez.
      rewrite recent_snoc by auto. rewrite Er, Hlen, app_length. cbn [length].
      destruct (Nat.ltb_spec (Nat.min n (S (length t))) n) as [L|L].
      + (* window not full: its front is the first value *)
        assert (f = z).
        { unfold recent in Er. replace (length (z :: t) - n)%nat with 0%nat in Er by (cbn [length]; lia).
          simpl in Er. congruence. }
        subst f. rewrite rsum_app. cbn [rsum]. cbn [rsum] in HA. rewrite HA.
        replace (Nat.min (length t) (n - 1)) with (length t) by lia.
        replace (Nat.min (length t + 1) (n - 1)) with (length t + 1)%nat by lia.
        rewrite plus_INR; simpl (INR 1). ring_simplify. lra.
      + cbn [tl]. rewrite rsum_app. cbn [rsum]. rewrite HA. cbn [rsum].
        replace (Nat.min (length t) (n - 1)) with (n - 1)%nat by lia.
        replace (Nat.min (length t + 1) (n - 1)) with (n - 1)%nat by lia. lra. }
  destruct HF as [f [Ef Hsum]].
  unfold ma_tick. rewrite Ef. simpl bind. rewrite E. simpl bind.
  rewrite (repr_size _ _ Rw), recent_length, app_length. cbn [length].
  rewrite rdiv_ok by (apply INR_neq0; lia). simpl bind.
  destruct (zs ++ [x]) as [|z t] eqn:Ez; [destruct zs; discriminate|].
  specialize (Hsum z t eq_refl).
  eexists; split.
  - unfold after_reset. rewrite Hsum. do 4 f_equal.
    rewrite <- Ez, app_length. reflexivity.
  - unfold stale_state. cbn [window accumulated]. repeat split; try (apply Rw); try lia; try (apply Rw; fail); auto.
Qed.

Lemma fold_snoc {A} (xs : list A) : forall zs, fold_left (fun l x => l ++ [x]) xs zs = zs ++ xs.
Proof.
  induction xs as [|x xs IH]; intros zs; simpl; [now rewrite app_nil_r|].
  rewrite IH, <- app_assoc. reflexivity.
Qed.

Lemma stale_trace n a c m ys : (0 < n)%nat -> stale_state n a c m [] ->
  exists m' os, transform ma_tick m ys = Ok (m', os) /\ length os = length ys /\
    forall k, (k < length ys)%nat -> nth_error os k = Some (after_reset n a c (firstn (k + 1) ys)).
Proof.
  intros Hn H0.
  destruct (transform_trace ma_tick (stale_state n a c) (fun l x => l ++ [x]) (after_reset n a c)
     (fun s l x H => ma_tick_stale n a c s l x Hn H) ys m [] H0) as [m' [os [E [L [_ N]]]]].
  exists m', os; repeat split; auto. intros k Hk. rewrite (N k Hk), fold_snoc. reflexivity.
Qed.

(** ** What is left in storage cell 0 *)
Lemma full_front_cell n (r : ring R) l (HR : repr r l) : rcap r = n -> (0 < n)%nat ->
  exists c, nth_error (cells r) 0 = Some c /\ front (clear r) = Ok c.
Proof.
  intros HC Hn. destruct HR as [[H1 [H2 H3]] _].
  destruct (load_ok (cells r) 0 ltac:(lia)) as [c [E N]].
  exists c; split; [exact N|]. unfold front, at_, normalize, clear; simpl.
  rewrite H1, HC. destruct (Nat.eqb_spec n 0); [lia|]. cbn [bind]. rewrite Nat.mod_small by lia. exact E.
Qed.

Lemma stale_after_reset n m l : (0 < n)%nat -> full_state n m l ->
  exists c, nth_error (cells (window m)) 0 = Some c /\ stale_state n (rsum l) c (m_reset m) [].
Proof.
  intros Hn [HR [HL [HC HA]]].
  destruct (full_front_cell n _ _ HR HC Hn) as [c [N F]].
  exists c; split; [exact N|]. unfold stale_state, m_reset; cbn [window accumulated].
  destruct (repr_clear _ _ HR) as [R1 R2]. repeat split; try apply R1; try (simpl; lia); auto. lia.
Qed.

Lemma stale_after_resize n m l p : (0 < n)%nat -> (0 < p)%nat -> full_state n m l ->
  exists c, nth_error (cells (window m)) 0 = Some c /\ stale_state p (rsum l) c (m_resize m p) [].
Proof.
  intros Hn Hp [HR [HL [HC HA]]].
  destruct (full_front_cell n _ _ HR HC Hn) as [c [N F]].
  exists c; split; [exact N|]. unfold stale_state, m_resize; cbn [window accumulated].
  destruct (repr_resize 0 _ _ p HR) as [R1 R2].
  split; [apply R1|]. split; [exact R2|]. split; [exact HA|].
  unfold front, at_, normalize, resize; simpl.
  destruct (Nat.eqb_spec p 0); [lia|]. simpl. rewrite Nat.mod_small by lia.
  destruct p as [|p]; [lia|]. destruct (cells (window m)) as [|c' t]; [discriminate|].
  simpl in *. unfold load; simpl. congruence.
Qed.

Definition cells_state (n : nat) (r : ring R) (xs : list R) : Prop :=
  length (cells r) = n /\ rcap r = n /\ rsize r = n /\ rfront r = (length xs mod n)%nat /\
  nth_error (cells r) 0 = Some (stale_cell n xs).

Lemma cells_state_push n r xs x r' : (0 < n)%nat -> cells_state n r xs ->
  push_back r x = Ok r' -> cells_state n r' (xs ++ [x]).
Proof.
  intros Hn [H1 [H2 [H3 [H4 H5]]]] E.
  unfold push_back, full, increment_front_and_back, set_back_, normalize in E.
  rewrite H2, H3, Nat.eqb_refl in E.
  destruct (Nat.eqb_spec n 0) as [|_]; [lia|]. cbn [bind rcap rfront rsize cells] in E.
  destruct (Nat.eqb_spec n 0) as [|_]; [lia|]. cbn [bind rcap rfront rsize cells] in E.
  rewrite H4 in E.
  assert (Hm : (length xs mod n < n)%nat) by (apply Nat.mod_upper_bound; lia).
  assert (Hi : ((((length xs mod n + 1) mod n + n - 1) mod n = length xs mod n))%nat).
  { destruct (Nat.eq_dec (length xs mod n + 1) n) as [Q|Q].
    - rewrite Q, Nat.mod_same by lia. simpl. rewrite Nat.mod_small by lia. lia.
    - rewrite (Nat.mod_small (length xs mod n + 1)) by lia.
      replace (length xs mod n + 1 + n - 1)%nat with (length xs mod n + 1 * n)%nat by lia.
      rewrite Nat.mod_add by lia. apply Nat.mod_small; lia. }
  rewrite Hi in E.
  destruct (store_ok (cells r) (length xs mod n) x ltac:(lia)) as [cs [S1 [S2 [S3 S4]]]].
  rewrite S1 in E. cbn [bind] in E. inversion E; subst r'; clear E.
  unfold cells_state; cbn [cells rcap rsize rfront]. rewrite app_length; cbn [length].
  repeat split; try lia.
  - apply Nat.add_mod_idemp_l; lia.
  - assert (Hc : stale_cell n (xs ++ [x]) = nth (length xs / n * n) (xs ++ [x]) 0).
    { unfold stale_cell. rewrite app_length; cbn [length]. replace (length xs + 1 - 1)%nat with (length xs) by lia.
      destruct xs; reflexivity. }
    rewrite Hc. pose proof (Nat.div_mod (length xs) n ltac:(lia)) as D.
    destruct (Nat.eq_dec (length xs mod n) 0) as [Z|Z].
    + rewrite Z in S3. rewrite S3. f_equal.
      replace (length xs / n * n)%nat with (length xs) by lia.
      rewrite app_nth2 by lia. rewrite Nat.sub_diag. reflexivity.
    + rewrite S4 by lia. rewrite H5. f_equal.
      rewrite app_nth1 by lia. unfold stale_cell. destruct xs as [|a t]; [simpl in Z; rewrite Nat.mod_0_l in Z; lia|].
      f_equal. f_equal. set (L := length (a :: t)) in *.
      clearbody L. clear -D Z Hm Hn. symmetry.
      apply (Nat.div_unique (L - 1) n (L / n) (L mod n - 1)); revert D Z Hm;
        generalize (L / n)%nat (L mod n)%nat; intros; [lia|nia].
Qed.

Lemma cells_state_new n : (0 < n)%nat -> cells_state n (ring_filled 0 n) [].
Proof.
  intros Hn. unfold cells_state; simpl. rewrite repeat_length, Nat.mod_0_l by lia.
  repeat split. destruct n; [lia|reflexivity].
Qed.

Lemma history_state n xs : (0 < n)%nat ->
  exists m ys, transform ma_tick (m_new n) xs = Ok (m, ys) /\
    full_state n m (fold_left shift xs (repeat 0 n)) /\ cells_state n (window m) xs.
Proof.
  intros Hn.
  destruct (transform_trace ma_tick
     (fun m zs => full_state n m (fold_left shift zs (repeat 0 n)) /\ cells_state n (window m) zs)
     (fun l x => l ++ [x]) (fun zs => rsum (fold_left shift zs (repeat 0 n)) / INR n)) with (xs := xs) (s := m_new n) (l := @nil R)
   as [m [ys [E [_ [H _]]]]].
  - intros s l x [F C].
    destruct (ma_tick_full n s _ x Hn F) as [s' [E F']].
    exists s'. rewrite fold_left_app. cbn [fold_left]. split; [exact E|]. split; [exact F'|].
    unfold ma_tick in E. destruct (front (window s)) as [f| |]; simpl in E; try discriminate.
    destruct (push_back (window s) x) as [w| |] eqn:P; simpl in E; try discriminate.
    destruct (rdiv _ _); simpl in E; try discriminate. inversion E; subst; cbn [window].
    eapply cells_state_push; eauto.
  - split; [apply full_state_new; auto|apply cells_state_new; auto].
  - rewrite fold_snoc in H. simpl in H. exists m, ys; tauto.
Qed.

Lemma rsum_history n xs : (0 < n)%nat -> rsum (fold_left shift xs (repeat 0 n)) = rsum (recent n xs).
Proof.
  intros Hn. rewrite fold_shift by (rewrite repeat_length; lia). unfold recent.
  rewrite skipn_app, repeat_length.
  destruct (le_lt_dec (length xs) n) as [L|L].
  - replace (length xs - n)%nat with 0%nat by lia. simpl. rewrite rsum_app.
    assert (G : forall k j, rsum (skipn k (repeat 0 j)) = 0).
    { induction k as [|k IH]; intros j; simpl; [rewrite rsum_repeat; lra|].
      destruct j; simpl; [reflexivity|apply IH]. }
    rewrite G. lra.
  - rewrite skipn_all2 by (rewrite repeat_length; lia). reflexivity.
Qed.

Lemma moving_average_reset_lemma n xs ys : (0 < n)%nat ->
  exists m os0 m' os, transform ma_tick (m_new n) xs = Ok (m, os0) /\
    transform ma_tick (m_reset m) ys = Ok (m', os) /\ length os = length ys /\
    forall k, (k < length ys)%nat ->
      nth_error os k = Some (after_reset n (rsum (recent n xs)) (stale_cell n xs) (firstn (k + 1) ys)).
Proof.
  intros Hn. destruct (history_state n xs Hn) as [m [os0 [E [F C]]]].
  destruct (stale_after_reset n m _ Hn F) as [c [Nc St]].
  assert (c = stale_cell n xs) by (destruct C as [_ [_ [_ [_ C]]]]; congruence). subst c.
  rewrite rsum_history in St by auto.
  destruct (stale_trace n _ _ _ ys Hn St) as [m' [os [E' [L N]]]].
  exists m, os0, m', os; repeat split; auto.
Qed.

Lemma moving_average_resize_lemma n p xs ys : (0 < n)%nat -> (0 < p)%nat ->
  exists m os0 m' os, transform ma_tick (m_new n) xs = Ok (m, os0) /\
    transform ma_tick (m_resize m p) ys = Ok (m', os) /\ length os = length ys /\
    forall k, (k < length ys)%nat ->
      nth_error os k = Some (after_reset p (rsum (recent n xs)) (stale_cell n xs) (firstn (k + 1) ys)).
Proof.
  intros Hn Hp. destruct (history_state n xs Hn) as [m [os0 [E [F C]]]].
  destruct (stale_after_resize n m _ p Hn Hp F) as [c [Nc St]].
  assert (c = stale_cell n xs) by (destruct C as [_ [_ [_ [_ C]]]]; congruence). subst c.
  rewrite rsum_history in St by auto.
  destruct (stale_trace p _ _ _ ys Hp St) as [m' [os [E' [L N]]]].
  exists m, os0, m', os; repeat split; auto.
Qed.

(** For every window of at least two samples a reset filter already differs on its first output. *)
Lemma reset_differs n : (2 <= n)%nat ->
  exists m1 o1 m2 o2, transform ma_tick (m_reset (m_new n)) [1] = Ok (m1, [o1]) /\
    transform ma_tick (m_new n) [1] = Ok (m2, [o2]) /\ o1 <> o2.
Proof.
  intros Hn.
  destruct (moving_average_reset_lemma n [] [1] ltac:(lia)) as [m [os0 [m' [os [E0 [E [L N]]]]]]].
  simpl in E0. inversion E0; subst. specialize (N 0%nat ltac:(simpl; lia)).
  destruct (moving_average_lemma n [1] ltac:(lia)) as [m2 [os2 [E2 [L2 N2]]]].
  specialize (N2 0%nat ltac:(simpl; lia)).
  destruct os as [|o1 [|]]; simpl in L; try lia. destruct os2 as [|o2 [|]]; simpl in L2; try lia.
  exists m', o1, m2, o2. repeat split; auto.
  cbn [nth_error firstn Nat.add] in N, N2. unfold after_reset in N. injection N; injection N2; intros -> ->; clear N N2.
  replace (recent n [1]) with [1] by (unfold recent; cbn [length]; replace (1 - n)%nat with 0%nat by lia; reflexivity).
  replace (Nat.min n 1) with 1%nat by lia.
  unfold window_mean. rewrite (sumf_single _ n 0) by first [lia | intros [|i] Hi Hne; [lia|reflexivity]].
  unfold past; cbn [Nat.leb Nat.sub nth]. unfold stale_cell; cbn [rsum length Nat.min INR].
  intros Heq. apply (Rmult_eq_compat_r (INR n)) in Heq.
  unfold Rdiv in Heq. rewrite Rinv_1, Rmult_1_l, Rinv_l in Heq by (apply INR_neq0; lia). pose proof (le_INR 2 n Hn) as HI. simpl in HI. lra.
Qed.

(** ** Median *)
Lemma moving_median_lemma n xs : (0 < n)%nat ->
  exists m, transform mmed_tick (m_new n) xs = Ok (m, repeat 0 (length xs)).
Proof.
  intros Hn.
  destruct (transform_trace mmed_tick
     (fun m l => repr (window m) l /\ length l = n /\ rcap (window m) = n) shift (fun _ => 0))
    with (xs := xs) (s := m_new n) (l := repeat 0 n) as [m [ys [E [L [_ N]]]]].
  - intros s l x [HR [HL HC]].
    destruct (push_back_repr _ _ x HR ltac:(lia)) as [w [Ew [Ec Rw]]].
    rewrite HL, HC, Nat.ltb_irrefl in Rw. fold (shift l x) in Rw.
    unfold mmed_tick. rewrite Ew; simpl. rewrite (iterate_repr _ _ Rw). simpl.
    eexists; split; [reflexivity|]. cbn [window]. split; [exact Rw|]. rewrite shift_length by lia. lia.
  - split; [apply repr_filled|]. rewrite repeat_length. split; reflexivity.
  - exists m. rewrite E. do 2 f_equal. apply nth_error_ext_eq. intros i.
    destruct (lt_dec i (length xs)) as [Hi|Hi].
    + rewrite N by auto. symmetry. rewrite (nth_error_nth' _ 0) by (rewrite repeat_length; lia).
      f_equal. apply nth_repeat'.
    + rewrite (proj2 (nth_error_None _ _)) by lia. symmetry. apply nth_error_None. rewrite repeat_length; lia.
Qed.

(** ** Moving RMS after reset: NaN *)
Lemma mr_tick_ma m x :
  mr_tick m x = bind (ma_tick m (x * x)) (fun p => bind (rsqrt (snd p)) (fun y => Ok (fst p, y))).
Proof.
  unfold mr_tick, ma_tick.
  destruct (front (window m)); simpl; auto. destruct (push_back (window m) (x * x)); simpl; auto.
  destruct (rdiv _ _); simpl; auto.
Qed.

Lemma mr_nonfinite xs : forall m m' os, transform ma_tick m (map (fun x => x * x) xs) = Ok (m', os) ->
  (exists k y, nth_error os k = Some y /\ y < 0) -> transform mr_tick m xs = NonFinite.
Proof.
  induction xs as [|x xs IH]; intros m m' os E [k [y [N L]]].
  - simpl in E. inversion E; subst. destruct k; discriminate.
  - cbn [map transform] in E. apply bind_Ok in E. destruct E as [[m1 y1] [E1 E]].
    apply bind_Ok in E. destruct E as [[m2 os2] [E2 E]]. inversion E; subst; clear E.
    cbn [transform]. rewrite mr_tick_ma, E1. cbn [bind fst snd] in *.
    unfold rsqrt. destruct (Rlt_dec y1 0) as [|Hy]; [reflexivity|]. cbn [bind fst snd].
    rewrite (IH m1 m' os2); [reflexivity|exact E2|].
    destruct k as [|k]; [simpl in N; injection N; intros; lra|]. exists k, y; auto.
Qed.

Lemma rms_reset_nan n : (2 <= n)%nat -> transform mr_tick (m_reset (m_new n)) [1; 0; 0] = NonFinite.
Proof.
  intros Hn.
  destruct (moving_average_reset_lemma n [] [1*1; 0*0; 0*0] ltac:(lia)) as [m [os0 [m' [os [E0 [E [L N]]]]]]].
  simpl in E0. injection E0; intros; subst.
  apply (mr_nonfinite _ _ m' os); [exact E|].
  specialize (N 2%nat ltac:(simpl; lia)). eexists 2%nat, _; split; [exact N|].
  cbn [firstn Nat.add after_reset rsum length]. unfold recent; cbn [length].
  unfold stale_cell. cbn [length Nat.sub skipn rsum].
  destruct n as [|[|[|n]]]; try lia.
  - cbn [Nat.sub Nat.min skipn rsum INR]. lra.
  - replace (3 - S (S (S n)))%nat with 0%nat by lia.
    replace (Nat.min 2 (S (S (S n)) - 1)) with 2%nat by lia.
    replace (Nat.min (S (S (S n))) 3) with 3%nat by lia.
    cbn [Nat.sub Nat.min skipn rsum INR]. lra.
Qed.

Lemma chunk_lemma {S X Y} (tick : S -> X -> res (S * Y)) s xs ys s1 o1 s2 o2 :
  transform tick s xs = Ok (s1, o1) -> transform tick s1 ys = Ok (s2, o2) ->
  transform tick s (xs ++ ys) = Ok (s2, o1 ++ o2).
Proof. intros E1 E2. rewrite transform_app, E1. cbn [bind fst snd]. rewrite E2. reflexivity. Qed.

Lemma zero_window_ub x xs : transform ma_tick (m_new 0) (x :: xs) = UB /\ transform mr_tick (m_new 0) (x :: xs) = UB.
Proof. split; reflexivity. Qed.
