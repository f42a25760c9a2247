(** Theorems C19-C24 and C65: element-wise algorithms, copies, ranges and searches. *)
From Coq Require Import Sorting.Sorted.
From Verif Require Import BaseProofs RealBase RealBaseProofs AlgModel AlgSpec AlgProofs.
Local Open Scope R_scope.

Lemma elementwise_of (g : R -> R) (P : R -> R -> Prop) mem first n d : legal mem first n d -> (forall x, P x (g x)) ->
  exists mem', mtransform (fun v => Ok (g v)) mem first d n = Ok mem' /\ elementwise P mem first n d mem'.
Proof.
  intros [H1 [H2 H3]] HP. eexists. split; [apply mtransform_ok; auto|].
  assert (L : length (map g (slice mem first n)) = n) by (rewrite map_length; apply slice_length; auto).
  split; [|split].
  - apply written_length. rewrite L. exact H2.
  - intros i x Hi E. exists (g x). split; auto. rewrite nth_written by (rewrite L; auto). rewrite L.
    destruct (Nat.leb_spec d (d + i)), (Nat.ltb_spec (d + i) (d + n)); cbn [andb]; try lia.
    replace (d + i - d)%nat with i by lia. rewrite nth_error_map, nth_slice. destruct (Nat.ltb_spec i n); [|lia]. rewrite E. reflexivity.
  - intros j Hj. rewrite nth_written by (rewrite L; auto). rewrite L.
    destruct (Nat.leb_spec d j), (Nat.ltb_spec j (d + n)); cbn [andb]; auto; lia.
Qed.

(** ** C19 *)
Theorem C19_clipper_range mem first n d mn mx : legal mem first n d -> mn <= mx ->
  exists mem', clipper mem first n d mn mx = Ok mem' /\
    elementwise (fun x y => within mn mx y /\ (within mn mx x -> y = x) /\ (x <= mn -> y = mn) /\ (mx <= x -> y = mx)) mem first n d mem'.
Proof. intros. apply elementwise_of; auto. intros x. apply clip_spec; auto. Qed.

Theorem C19_clipped_amplifier_range mem first n d factor mn mx : legal mem first n d -> mn <= mx ->
  exists mem', amplifier_clipped mem first n d factor mn mx = Ok mem' /\
    elementwise (fun x y => within mn mx y /\ (within mn mx (factor * x) -> y = factor * x) /\
                            (factor * x <= mn -> y = mn) /\ (mx <= factor * x -> y = mx)) mem first n d mem'.
Proof. intros. apply elementwise_of; auto. intros x. apply (clip_spec mn mx (factor * x)); auto. Qed.

(** Monotone: a pointwise larger source gives a pointwise larger destination. *)
Theorem C19_clipper_monotone mem1 mem2 first n d mn mx m1 m2 : legal mem1 first n d -> legal mem2 first n d -> mn <= mx ->
  clipper mem1 first n d mn mx = Ok m1 -> clipper mem2 first n d mn mx = Ok m2 ->
  forall i x1 x2 y1 y2, (i < n)%nat -> nth_error mem1 (first + i) = Some x1 -> nth_error mem2 (first + i) = Some x2 -> x1 <= x2 ->
  nth_error m1 (d + i) = Some y1 -> nth_error m2 (d + i) = Some y2 -> y1 <= y2.
Proof.
  intros L1 L2 HM E1 E2 i x1 x2 y1 y2 Hi X1 X2 HX Y1 Y2.
  destruct (elementwise_of (clip_fn mn mx) (fun x y => y = clip_fn mn mx x) mem1 first n d L1 (fun _ => eq_refl)) as [a [A1 [_ [A2 _]]]].
  destruct (elementwise_of (clip_fn mn mx) (fun x y => y = clip_fn mn mx x) mem2 first n d L2 (fun _ => eq_refl)) as [b [B1 [_ [B2 _]]]].
  unfold clipper in *. rewrite A1 in E1. rewrite B1 in E2. injection E1 as <-. injection E2 as <-.
  destruct (A2 i x1 Hi X1) as [u [U1 ->]]. destruct (B2 i x2 Hi X2) as [w [W1 ->]].
  rewrite U1 in Y1. rewrite W1 in Y2. injection Y1 as <-. injection Y2 as <-. apply clip_monotone; auto.
Qed.

(** Idempotent: clipping in place twice is clipping once. *)
Theorem C19_clipper_idempotent mem first n mn mx m1 : in_range mem first n -> mn <= mx ->
  clipper mem first n first mn mx = Ok m1 -> clipper m1 first n first mn mx = Ok m1.
Proof.
  intros H HM E. assert (L : legal mem first n first) by (split; [auto|split; [auto|left; lia]]).
  destruct (elementwise_of (clip_fn mn mx) (fun x y => y = clip_fn mn mx x) mem first n first L (fun _ => eq_refl)) as [a [A1 [AL [A2 A3]]]].
  unfold clipper in *. rewrite A1 in E. injection E as <-.
  assert (L' : legal a first n first) by (unfold legal, in_range in *; rewrite AL; exact L).
  destruct (elementwise_of (clip_fn mn mx) (fun x y => y = clip_fn mn mx x) a first n first L' (fun _ => eq_refl)) as [b [B1 [BL [B2 B3]]]].
  rewrite B1. f_equal. apply nth_error_ext_eq. intros j.
  destruct (Nat.lt_ge_cases j first) as [J|J]; [apply B3; lia|]. destruct (Nat.lt_ge_cases j (first + n)) as [J'|J']; [|apply B3; lia].
  replace j with (first + (j - first))%nat by lia. set (i := (j - first)%nat) in *.
  destruct (nth_some mem (first + i)) as [x X]; [unfold in_range in H; lia|].
  destruct (A2 i x ltac:(unfold i; lia) X) as [y [Y ->]].
  destruct (B2 i _ ltac:(unfold i; lia) Y) as [z [Z ->]]. rewrite Z, Y. f_equal. apply clip_idem; auto.
Qed.

(** ** C20 *)
Theorem C20_amplifier mem first n d factor : legal mem first n d ->
  exists mem', amplifier mem first n d factor = Ok mem' /\ elementwise (fun x y => y = factor * x) mem first n d mem'.
Proof. intros. apply (elementwise_of (fun v => factor * v)); auto. Qed.

Theorem C20_floor mem first n d : legal mem first n d ->
  exists mem', alg_floor mem first n d = Ok mem' /\ elementwise (fun x y => is_integer y /\ y <= x < y + 1) mem first n d mem'.
Proof. intros. apply (elementwise_of cfloor); auto. intros x. apply cfloor_spec. Qed.

Theorem C20_ceil mem first n d : legal mem first n d ->
  exists mem', alg_ceil mem first n d = Ok mem' /\ elementwise (fun x y => is_integer y /\ y - 1 < x <= y) mem first n d mem'.
Proof. intros. apply (elementwise_of cceil); auto. intros x. apply cceil_spec. Qed.

(** Nearest integer, ties away from zero. *)
Theorem C20_round mem first n d : legal mem first n d ->
  exists mem', alg_round mem first n d = Ok mem' /\
    elementwise (fun x y => is_integer y /\ Rabs (y - x) <= / 2 /\ (Rabs (y - x) = / 2 -> Rabs x < Rabs y)) mem first n d mem'.
Proof. intros. apply (elementwise_of cround); auto. intros x. apply cround_spec. Qed.

(** Truncation: the integer of largest magnitude not beyond x, on the same side of zero. *)
Theorem C20_fix mem first n d : legal mem first n d ->
  exists mem', alg_fix mem first n d = Ok mem' /\
    elementwise (fun x y => is_integer y /\ Rabs y <= Rabs x < Rabs y + 1 /\ 0 <= y * x) mem first n d mem'.
Proof. intros. apply (elementwise_of ctrunc); auto. intros x. apply ctrunc_spec. Qed.

Theorem C20_rectify mem first n d : legal mem first n d ->
  exists mem', alg_rectify mem first n d = Ok mem' /\ elementwise (fun x y => (y = x \/ y = - x) /\ 0 <= y) mem first n d mem'.
Proof.
  intros. apply (elementwise_of Rabs); auto. intros x. split; [|apply Rabs_pos].
  unfold Rabs. destruct (Rcase_abs x); auto.
Qed.

(** A destination that is too short is written past its end. *)
Theorem C20_short_destination (mem : list R) first n d factor mn mx : (0 < n)%nat -> ~ in_range mem d n ->
  amplifier mem first n d factor = UB /\ amplifier_clipped mem first n d factor mn mx = UB /\ clipper mem first n d mn mx = UB /\
  alg_floor mem first n d = UB /\ alg_ceil mem first n d = UB /\ alg_round mem first n d = UB /\
  alg_fix mem first n d = UB /\ alg_rectify mem first n d = UB.
Proof.
  intros H1 H2. repeat split;
    [apply (mtransform_ub (fun v => factor * v))|apply (mtransform_ub (clip_amp factor mn mx))|apply (mtransform_ub (clip_fn mn mx))
    |apply (mtransform_ub cfloor)|apply (mtransform_ub cceil)|apply (mtransform_ub cround)|apply (mtransform_ub ctrunc)|apply (mtransform_ub Rabs)]; auto.
Qed.

(** ** C21 *)
Theorem C21_binary_search {A} (eqb ltb : A -> A -> bool) (le : A -> A -> Prop) l v :
  total_order eqb ltb le -> StronglySorted le l ->
  exists k, binary_search ltb eqb l v = Ok k /\ (In v l -> first_at l v k) /\ (~ In v l -> k = length l).
Proof.
  intros [Heq [Hl [Hr [Ht [Ha Htot]]]]] HS.
  assert (Hlt : forall x y, ltb x y = false <-> le y x).
  { intros x y. destruct (ltb x y) eqn:E.
    - apply Hl in E as [E1 E2]. split; [discriminate|]. intros E3. exfalso. apply E2. apply Ha; auto.
    - split; auto. intros _. destruct (Htot x y) as [H|H]; auto. destruct (eqb x y) eqn:Q.
      + apply Heq in Q. subst. apply Hr.
      + assert (ltb x y = true); [|congruence]. apply Hl. split; auto. intros ->. assert (eqb y y = true) by (apply Heq; auto). congruence. }
  assert (HS' : sorted le l).
  { clear -HS. induction HS as [|x l HS IH HF]; intros i j a b Hij E1 E2; [destruct i; discriminate|].
    destruct j; [lia|]. simpl in E2. destruct i; simpl in E1.
    - injection E1 as <-. rewrite Forall_forall in HF. apply HF. eapply nth_error_In; eauto.
    - apply (IH i j); auto. lia. }
  destruct (binary_search_ok eqb Heq ltb le Hlt Ht Hr Ha l v HS') as [k [E D]]. exists k. split; auto.
  destruct D as [D|[D1 D2]]; split; intros; auto; try contradiction.
  exfalso. apply H. eapply nth_error_In. apply D.
Qed.

(** ** C22 *)
Theorem C22_linear_search {A} (eqb : A -> A -> bool) l v : (forall x y, eqb x y = true <-> x = y) ->
  (In v l -> first_at l v (linear_search eqb l v)) /\ (~ In v l -> linear_search eqb l v = length l).
Proof.
  intros H. destruct (std_find_spec eqb H l v) as [S1 [S2 S3]]. unfold linear_search. split; intros HI; [|apply S3; auto].
  apply S2. assert (std_find eqb l v <> length l) by (intros E; apply S3 in E; auto). lia.
Qed.

Theorem C22_contains {A} (eqb : A -> A -> bool) l v : (forall x y, eqb x y = true <-> x = y) ->
  contains eqb l v = true <-> In v l.
Proof.
  intros H. destruct (std_find_spec eqb H l v) as [S1 [S2 S3]]. unfold contains.
  destruct (Nat.eqb_spec (std_find eqb l v) (length l)) as [E|E]; cbn [negb]; split; intros; auto; try discriminate.
  - apply S3 in E. contradiction.
  - assert (F : first_at l v (std_find eqb l v)) by (apply S2; lia). eapply nth_error_In. apply F.
Qed.

Theorem C22_index_of {A} (eqb : A -> A -> bool) l v : (forall x y, eqb x y = true <-> x = y) ->
  (Z.of_nat (length l) <= 2 ^ 31)%Z ->
  (forall k, first_at l v k -> index_of eqb l v = Z.of_nat k) /\ (~ In v l -> index_of eqb l v = (-1)%Z) /\
  ((0 <= index_of eqb l v)%Z <-> In v l).
Proof.
  intros H HL. destruct (std_find_spec eqb H l v) as [S1 [S2 S3]].
  assert (T : forall z, (- 2 ^ 31 <= z < 2 ^ 31)%Z -> to_int32 z = z).
  { intros z Hz. unfold to_int32. rewrite Z.mod_small; lia. }
  assert (P : index_of eqb l v = if (std_find eqb l v =? length l)%nat then (-1)%Z else Z.of_nat (std_find eqb l v)).
  { unfold index_of. destruct (Nat.eqb_spec (std_find eqb l v) (length l)); apply T; lia. }
  rewrite P. destruct (Nat.eqb_spec (std_find eqb l v) (length l)) as [E|E].
  - pose proof (proj1 S3 E) as N. split; [|split].
    + intros k [F _]. exfalso. apply N. eapply nth_error_In. apply F.
    + auto.
    + split; intros; [lia|contradiction].
  - assert (F : first_at l v (std_find eqb l v)) by (apply S2; lia).
    assert (I : In v l) by (eapply nth_error_In; apply F). split; [|split].
    + intros k Fk. f_equal. eapply first_at_unique; eauto.
    + intros; contradiction.
    + split; intros; auto. lia.
Qed.

(** Without the length bound the conversion to int32 wraps around: an element present at position
    2^31 is reported at a negative index. *)
Lemma index_of_wrap (l : list bool) : (forall j, (j < Z.to_nat (2 ^ 31))%nat -> nth_error l j = Some false) ->
  nth_error l (Z.to_nat (2 ^ 31)) = Some true -> index_of Bool.eqb l true = (- 2 ^ 31)%Z.
Proof.
  intros H1 H2. pose proof (std_find_spec Bool.eqb Bool.eqb_true_iff l true) as [S1 [S2 S3]].
  assert (I : In true l) by (eapply nth_error_In; eauto).
  assert (N : std_find Bool.eqb l true <> length l) by (intros E; apply S3 in E; auto).
  assert (F : first_at l true (std_find Bool.eqb l true)) by (apply S2; lia).
  assert (E : std_find Bool.eqb l true = Z.to_nat (2 ^ 31)).
  { eapply first_at_unique; eauto. split; auto. intros j Hj. rewrite H1 by auto. discriminate. }
  unfold index_of. destruct (Nat.eqb_spec (std_find Bool.eqb l true) (length l)); [contradiction|]. rewrite E, Z2Nat.id by lia. reflexivity.
Qed.

Theorem C22_index_of_overflow_refuted : exists l : list bool, In true l /\ (index_of Bool.eqb l true < 0)%Z.
Proof.
  exists (repeat false (Z.to_nat (2 ^ 31)) ++ [true]). split; [apply in_or_app; right; left; reflexivity|].
  rewrite index_of_wrap; [lia| |].
  - generalize (Z.to_nat (2 ^ 31)). intros n j Hj. rewrite nth_error_app1 by (rewrite repeat_length; auto). apply nth_error_repeat; auto.
  - generalize (Z.to_nat (2 ^ 31)). intros n. rewrite nth_error_app2 by (rewrite repeat_length; auto). rewrite repeat_length, Nat.sub_diag. reflexivity.
Qed.

(** ** C23 *)

Lemma space_general (g : R -> R) mem d x1 x2 n : (2 <= n)%nat -> in_range mem d n ->
  exists mem', space_loop g mem d x1 (rdiv (x2 - x1) (INR n - 1)) n = Ok mem' /\ length mem' = length mem /\
    (forall i, (i < n)%nat -> nth_error mem' (d + i) = Some (g (x1 + INR i * ((x2 - x1) / (INR n - 1))))) /\
    (forall j, (j < d \/ d + n <= j)%nat -> nth_error mem' j = nth_error mem j).
Proof.
  intros Hn Hd. assert (HN : 1 < INR n) by (change 1 with (INR 1); apply lt_INR; lia).
  rewrite rdiv_ok by lra. destruct n as [|m]; [lia|]. rewrite space_ok by auto.
  eexists. split; [reflexivity|]. set (out := map _ _).
  assert (L : length out = S m) by (unfold out; rewrite map_length, seq_length; auto).
  split; [apply written_length; rewrite L; auto|]. split.
  - intros i Hi. rewrite nth_written by (rewrite L; auto). rewrite L.
    destruct (Nat.leb_spec d (d + i)), (Nat.ltb_spec (d + i) (d + S m)); cbn [andb]; try lia.
    replace (d + i - d)%nat with i by lia. unfold out. rewrite nth_error_map.
    rewrite (nth_error_nth' _ 0%nat) by (rewrite seq_length; lia). rewrite seq_nth by lia. reflexivity.
  - intros j Hj. rewrite nth_written by (rewrite L; auto). rewrite L.
    destruct (Nat.leb_spec d j), (Nat.ltb_spec j (d + S m)); cbn [andb]; auto; lia.
Qed.

Theorem C23_linspace mem d x1 x2 n : (2 <= n)%nat -> in_range mem d n ->
  exists mem', linspace mem d x1 x2 n = Ok mem' /\ length mem' = length mem /\
    (forall i, (i < n)%nat -> nth_error mem' (d + i) = Some (x1 + INR i * ((x2 - x1) / (INR n - 1)))) /\
    nth_error mem' d = Some x1 /\ nth_error mem' (d + (n - 1)) = Some x2 /\
    (forall j, (j < d \/ d + n <= j)%nat -> nth_error mem' j = nth_error mem j).
Proof.
  intros Hn Hd. assert (HN : 1 < INR n) by (change 1 with (INR 1); apply lt_INR; lia).
  destruct (space_general (fun x => x) mem d x1 x2 n Hn Hd) as [m [E [L [P Q]]]]. exists m.
  split; [exact E|]. split; auto. split; auto. split; [|split; auto].
  - rewrite <- (Nat.add_0_r d), P by lia. f_equal. simpl. ring.
  - rewrite P by lia. f_equal. rewrite minus_INR by lia. simpl (INR 1). field. lra.
Qed.

Theorem C23_logspace mem d x1 x2 n : (2 <= n)%nat -> in_range mem d n ->
  exists mem', logspace mem d x1 x2 n = Ok mem' /\ length mem' = length mem /\
    (forall i, (i < n)%nat -> nth_error mem' (d + i) = Some (Rpower 10 (x1 + INR i * ((x2 - x1) / (INR n - 1))))) /\
    (forall j, (j < d \/ d + n <= j)%nat -> nth_error mem' j = nth_error mem j).
Proof. intros Hn Hd. apply (space_general (Rpower 10)); auto. Qed.

(** One point is the left end; no point writes nothing. *)
Theorem C23_degenerate mem d x1 x2 : in_range mem d 1 ->
  linspace mem d x1 x2 1 = Ok (written mem d [x1]) /\ linspace mem d x1 x2 0 = Ok mem.
Proof. intros H. split; [unfold linspace; rewrite space_one by auto; reflexivity|reflexivity]. Qed.

(** ** C24 *)
Theorem C24_padder mem first n d dn : in_range mem first n -> in_range mem d dn -> (n <= dn)%nat -> no_clobber first d n ->
  exists mem', padder mem first n d dn = Ok mem' /\ length mem' = length mem /\
    slice mem' d dn = slice mem first n ++ repeat 0 (dn - n) /\
    (forall j, (j < d \/ d + dn <= j)%nat -> nth_error mem' j = nth_error mem j).
Proof.
  intros H1 H2 H3 H4. eexists. split; [apply padder_ok; auto|]. set (out := slice mem first n ++ repeat 0 (dn - n)).
  assert (L : length out = dn) by (unfold out; rewrite app_length, repeat_length, slice_length by auto; lia).
  split; [apply written_length; rewrite L; auto|]. split.
  - apply nth_error_ext_eq. intros i. rewrite nth_slice. destruct (Nat.ltb_spec i dn).
    + rewrite nth_written by (rewrite L; auto). rewrite L. destruct (Nat.leb_spec d (d + i)), (Nat.ltb_spec (d + i) (d + dn)); cbn [andb]; try lia. f_equal. lia.
    + symmetry. apply nth_error_None. lia.
  - intros j Hj. rewrite nth_written by (rewrite L; auto). rewrite L. destruct (Nat.leb_spec d j), (Nat.ltb_spec j (d + dn)); cbn [andb]; auto; lia.
Qed.

Theorem C24_concatenate mem f1 n1 f2 n2 d : in_range mem f1 n1 -> in_range mem f2 n2 -> in_range mem d (n1 + n2) ->
  no_clobber f1 d n1 -> (f2 + n2 <= d \/ d + n1 + n2 <= f2)%nat ->
  exists mem', concatenate mem f1 n1 f2 n2 d = Ok mem' /\ length mem' = length mem /\
    slice mem' d (n1 + n2) = slice mem f1 n1 ++ slice mem f2 n2 /\
    (forall j, (j < d \/ d + (n1 + n2) <= j)%nat -> nth_error mem' j = nth_error mem j).
Proof.
  intros H1 H2 H3 H4 H5. eexists. split; [apply concatenate_ok; auto|]. set (out := slice mem f1 n1 ++ slice mem f2 n2).
  assert (L : length out = (n1 + n2)%nat) by (unfold out; rewrite app_length, !slice_length by auto; lia).
  split; [apply written_length; rewrite L; auto|]. split.
  - apply nth_error_ext_eq. intros i. rewrite nth_slice. destruct (Nat.ltb_spec i (n1 + n2)).
    + rewrite nth_written by (rewrite L; auto). rewrite L. destruct (Nat.leb_spec d (d + i)), (Nat.ltb_spec (d + i) (d + (n1 + n2))); cbn [andb]; try lia. f_equal. lia.
    + symmetry. apply nth_error_None. lia.
  - intros j Hj. rewrite nth_written by (rewrite L; auto). rewrite L. destruct (Nat.leb_spec d j), (Nat.ltb_spec j (d + (n1 + n2))); cbn [andb]; auto; lia.
Qed.

(** ** C65 *)
Theorem C65_derivative mem first n d : legal mem first n d -> (0 < n)%nat ->
  exists mem', derivative mem first n d = Ok mem' /\ length mem' = length mem /\
    nth_error mem' d = nth_error mem first /\
    (forall i x y, (S i < n)%nat -> nth_error mem (first + i) = Some x -> nth_error mem (first + S i) = Some y ->
       nth_error mem' (d + S i) = Some (y - x)) /\
    (forall j, (j < d \/ d + n <= j)%nat -> nth_error mem' j = nth_error mem j).
Proof.
  intros [H1 [H2 H3]] Hn. eexists. split; [apply derivative_ok; auto|]. set (out := diffs 0 (slice mem first n)).
  assert (L : length out = n) by (unfold out; rewrite diffs_length; apply slice_length; auto).
  assert (NW : forall i, (i < n)%nat -> nth_error (written mem d out) (d + i) = nth_error out i).
  { intros i Hi. rewrite nth_written by (rewrite L; auto). rewrite L. destruct (Nat.leb_spec d (d + i)), (Nat.ltb_spec (d + i) (d + n)); cbn [andb]; try lia. f_equal. lia. }
  assert (NS : forall i, (i < n)%nat -> nth_error (slice mem first n) i = nth_error mem (first + i)).
  { intros i Hi. rewrite nth_slice. destruct (Nat.ltb_spec i n); auto; lia. }
  split; [apply written_length; rewrite L; auto|]. split; [|split].
  - replace (nth_error (written mem d out) d) with (nth_error (written mem d out) (d + 0)) by (f_equal; lia).
    replace (nth_error mem first) with (nth_error mem (first + 0)) by (f_equal; lia). rewrite NW by auto. rewrite <- NS by auto.
    destruct (nth_error (slice mem first n) 0) as [x|] eqn:E.
    + unfold out. rewrite (diffs_nth _ _ _ _ E). f_equal. ring.
    + exfalso. apply nth_error_None in E. rewrite slice_length in E by auto. lia.
  - intros i x y Hi E1 E2. rewrite NW by auto. unfold out. rewrite <- NS in E1, E2 by lia. rewrite (diffs_nth _ _ _ _ E2).
    rewrite (nth_error_nth _ _ 0 E1). reflexivity.
  - intros j Hj. rewrite nth_written by (rewrite L; auto). rewrite L. destruct (Nat.leb_spec d j), (Nat.ltb_spec j (d + n)); cbn [andb]; auto; lia.
Qed.

(** Running sums of the output restore the input. *)
Theorem C65_derivative_inverse mem first n d mem' : legal mem first n d -> derivative mem first n d = Ok mem' ->
  forall i x, (i < n)%nat -> nth_error mem (first + i) = Some x -> rsum (slice mem' d (S i)) = x.
Proof.
  intros [H1 [H2 H3]] E i x Hi Ex. rewrite derivative_ok in E by auto. injection E as <-.
  set (out := diffs 0 (slice mem first n)).
  assert (L : length out = n) by (unfold out; rewrite diffs_length; apply slice_length; auto).
  assert (S : slice (written mem d out) d (S i) = firstn (S i) out).
  { apply nth_error_ext_eq. intros j. rewrite nth_slice. change (firstn (S i) out) with (slice out 0 (S i)). rewrite nth_slice. destruct (Nat.ltb_spec j (S i)); auto.
    rewrite nth_written by (rewrite L; auto). rewrite L. destruct (Nat.leb_spec d (d + j)), (Nat.ltb_spec (d + j) (d + n)); cbn [andb]; try lia. f_equal. lia. }
  rewrite S. unfold out. rewrite diffs_sum by (rewrite slice_length by auto; lia).
  assert (N : nth_error (slice mem first n) i = Some x) by (rewrite nth_slice; destruct (Nat.ltb_spec i n); [auto|lia]).
  rewrite (nth_error_nth _ _ 0 N). ring.
Qed.

Theorem C65_equal {A} (p : A -> A -> bool) a b :
  equal_fn p a b = true <-> (length a = length b /\ forall i x y, nth_error a i = Some x -> nth_error b i = Some y -> p x y = true).
Proof. apply equal_fn_spec. Qed.

(** ** Concrete cases *)
Example alg_legal_separate : legal [1; -2; 3; 0; 0; 0] 0 3 3.
Proof. unfold legal, in_range, no_clobber. simpl. lia. Qed.
Example alg_legal_in_place : legal [1; -2; 3] 0 3 0.
Proof. unfold legal, in_range, no_clobber. simpl. lia. Qed.
Example alg_order : total_order Nat.eqb Nat.ltb le /\ StronglySorted le [1; 3; 3; 7]%nat.
Proof.
  split.
  - unfold total_order. split; [apply Nat.eqb_eq|]. split; [intros; rewrite Nat.ltb_lt; lia|]. repeat split; intros; lia.
  - repeat constructor.
Qed.
Example alg_search : binary_search Nat.ltb Nat.eqb [1; 3; 3; 7]%nat 3%nat = Ok 1%nat /\ binary_search Nat.ltb Nat.eqb [1; 3; 3; 7]%nat 4%nat = Ok 4%nat.
Proof. split; reflexivity. Qed.

Print Assumptions C19_clipper_range.
Print Assumptions C19_clipped_amplifier_range.
Print Assumptions C19_clipper_monotone.
Print Assumptions C19_clipper_idempotent.
Print Assumptions C20_amplifier.
Print Assumptions C20_floor.
Print Assumptions C20_ceil.
Print Assumptions C20_round.
Print Assumptions C20_fix.
Print Assumptions C20_rectify.
Print Assumptions C20_short_destination.
Print Assumptions C21_binary_search.
Print Assumptions C22_linear_search.
Print Assumptions C22_contains.
Print Assumptions C22_index_of.
Print Assumptions C22_index_of_overflow_refuted.
Print Assumptions C23_linspace.
Print Assumptions C23_logspace.
Print Assumptions C23_degenerate.
Print Assumptions C24_padder.
Print Assumptions C24_concatenate.
Print Assumptions C65_derivative.
Print Assumptions C65_derivative_inverse.
Print Assumptions C65_equal.
