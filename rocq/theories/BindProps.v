(** Theorems C97-C104: the C and Python interfaces. *)
From Coq Require Import Sorting.Sorted.
From Verif Require Import Base BaseProofs RealBase RealBaseProofs AlgModel AlgSpec AlgProofs AlgProps StatModel StatSpec StatProofs StatProps FeatModel FeatProofs FeatProps WindowModel ConvModel SpectralModel SpectralSpec FourierProofs SpectralProofs SpectralProps OscModel MovingModel MovingProofs BindModel BindSpec Cplx.
Local Open Scope res_scope.
Local Open Scope R_scope.

Lemma int_small z : (0 <= z < 2 ^ 31)%Z -> to_int32 z = z.
Proof. intros H. unfold to_int32. rewrite Z.mod_small by lia. lia. Qed.

Lemma int_len_ok {A} (x : ndarray A) : acceptable x -> int_len x = Z.of_nat (len x).
Proof. intros [_ [_ H]]. apply int_small. lia. Qed.

Lemma slice_sees {A} (x : ndarray A) l : contiguous x -> sees x l -> slice (buf x) (start x) (len x) = l.
Proof.
  intros Hc [Hl Hs]. unfold contiguous in Hc. apply nth_error_ext_eq. intros i. rewrite nth_slice.
  destruct (Nat.ltb_spec i (len x)) as [Hi|Hi].
  - destruct (Hs i Hi) as [_ E]. rewrite E, Hc. f_equal. lia.
  - symmetry. apply nth_error_None. lia.
Qed.

Lemma sees_range {A} (x : ndarray A) l : contiguous x -> sees x l -> (0 < len x)%nat -> in_range (buf x) (start x) (len x).
Proof.
  intros Hc [Hl Hs] Hp. unfold contiguous in Hc. destruct (Hs (len x - 1)%nat ltac:(lia)) as [_ E]. rewrite Hc in E.
  assert (Hn : nth_error l (len x - 1) <> None) by (intros K; apply nth_error_None in K; lia).
  rewrite E in Hn. apply nth_error_Some in Hn. unfold in_range. lia.
Qed.

(** What the callee sees. *)
Lemma window_ok {A} (x : ndarray A) l : acceptable x -> contiguous x -> sees x l -> (start x <= length (buf x))%nat ->
  window_of x (Z.of_nat (len x)) = Ok l.
Proof.
  intros [_ [Hr _]] Hc Hs Hb. unfold window_of. rewrite Hr. rewrite Nat2Z.id.
  assert (Hin : in_range (buf x) (start x) (len x)).
  { destruct (Nat.eq_dec (len x) 0) as [E|E]; [unfold in_range; lia|]. apply (sees_range x l); auto. lia. }
  unfold in_range in Hin.
  destruct (Z.leb_spec 0 (Z.of_nat (len x))); [|lia].
  destruct (Z.leb_spec (Z.of_nat (start x) + Z.of_nat (len x)) (Z.of_nat (length (buf x)))); [|lia].
  cbn [andb]. f_equal. apply slice_sees; auto.
Qed.

Lemma execute_ok {A B} (f : list A -> res B) x l : acceptable x -> contiguous x -> sees x l -> (start x <= length (buf x))%nat ->
  yields (execute f x) (f l) /\ yields (execute_int f x) (f l).
Proof.
  intros Ha Hc Hs Hb. pose proof (window_ok x l Ha Hc Hs Hb) as W. unfold yields, execute, execute_int.
  rewrite (int_len_ok x Ha), W. rewrite (proj1 Ha). cbn [Nat.eqb bind]. destruct (f l); split; reflexivity.
Qed.

(** ** C97: functions of one array *)

(** Every statistic, feature and filter run on an ordinary array is the C++ function of its elements. *)
Theorem C97_contiguous_partial : forall x l, acceptable x -> contiguous x -> sees x l -> (start x <= length (buf x))%nat ->
  (forall c, (forall n, c = SMoment n -> (1 <= n <= 8)%Z) -> yields (py_stat c x) (native c l)) /\
  (forall c, yields (py_feature c x) (feat_function c l)) /\
  yields (py_peak2rms x) (peak2rms l) /\ yields (py_peak2peak x) (peak2peak l) /\
  (forall S (tick : S -> R -> res (S * R)) s, yields (py_filter tick s x) (transform tick s l)) /\
  yields (py_hilbert x) (hilbert l) /\ yields (py_dct x) (dct l) /\ yields (py_idct x) (idct l) /\
  yields (py_hartley x) (hartley l) /\ yields (py_cepstrum x) (cepstrum l).
Proof.
  intros x l Ha Hc Hs Hb.
  assert (E : forall B (f : list R -> res B), yields (execute f x) (f l)) by (intros; apply execute_ok; auto).
  assert (I : forall B (f : list R -> res B), yields (execute_int f x) (f l)) by (intros; apply execute_ok; auto).
  split; [|repeat split; intros; apply E || apply I].
  intros c Hm. destruct c; unfold py_stat, native; try apply I.
  specialize (Hm n eq_refl).
  assert (D : (n = 1 \/ n = 2 \/ n = 3 \/ n = 4 \/ n = 5 \/ n = 6 \/ n = 7 \/ n = 8)%Z) by lia.
  destruct D as [->|[->|[->|[->|[->|[->|[->| ->]]]]]]]; apply I.
Qed.

(** Which function each Python feature is. *)
Theorem C97_features_partial : forall x l, acceptable x -> contiguous x -> sees x l -> (start x <= length (buf x))%nat ->
  yields (py_feature FCrest x) (feat_crest l) /\ yields (py_feature FEntropy x) (feat_entropy l) /\
  (forall p, yields (py_feature (FRolloff p) x) (feat_rolloff l p)) /\ yields (py_feature FFlatness x) (feat_flatness l) /\
  yields (py_feature FDecrease x) (feat_decrease l) /\ yields (py_feature FCentroid x) (feat_centroid l) /\
  yields (py_feature FSpread x) (feat_spread l) /\ yields (py_feature FRssq x) (feat_rssq l) /\ yields (py_feature FRms x) (feat_rms l) /\
  yields (py_feature FPower x) (feat_power l) /\ yields (py_feature FEnergy x) (feat_energy l) /\
  (forall sr, yields (py_feature (FDuration sr) x) (feat_duration l sr)) /\
  (forall sr thr, yields (py_feature (FEffective sr thr) x) (feat_effective_duration l sr thr)) /\
  yields (py_feature FLeq x) (feat_leq l) /\ yields (py_feature FAzcr x) (feat_azcr l) /\ yields (py_feature FIrregularity x) (feat_irregularity l).
Proof.
  intros x l Ha Hc Hs Hb. assert (E : forall B (f : list R -> res B), yields (execute f x) (f l)) by (intros; apply execute_ok; auto).
  unfold py_feature, feat_function. repeat split; intros; apply E.
Qed.

Lemma written_tail {A} (a b out : list A) : length out = length b -> written (a ++ b) (length a) out = a ++ out.
Proof.
  intros H. unfold written. rewrite firstn_app, firstn_all, Nat.sub_diag. cbn [firstn]. rewrite app_nil_r.
  rewrite skipn_all2 by (rewrite app_length; lia). rewrite app_nil_r. reflexivity.
Qed.
Lemma firstn_tail {A} (a b : list A) : firstn (length a) (a ++ b) = a.
Proof. rewrite firstn_app, firstn_all, Nat.sub_diag. cbn [firstn]. apply app_nil_r. Qed.
Lemma skipn_tail {A} (a b : list A) : skipn (length a) (a ++ b) = b.
Proof. rewrite skipn_app, skipn_all, Nat.sub_diag. reflexivity. Qed.

(** The element-wise functions return a new array and leave the input's memory alone. *)
Lemma inplace_ok (g : R -> R) f x l junk : acceptable x -> contiguous x -> sees x l -> (start x <= length (buf x))%nat ->
  length junk = len x -> (forall m a n d, f m a n d = mtransform (fun v => Ok (g v)) m a d n) ->
  execute_inplace f junk x = Ok (Some (buf x, map g l)).
Proof.
  intros Ha Hc Hs Hb Hj Hf. unfold execute_inplace. rewrite (int_len_ok x Ha), (proj1 Ha), (proj1 (proj2 Ha)). cbn [Nat.eqb].
  destruct (Z.ltb_spec (Z.of_nat (len x)) 0); [lia|]. rewrite Nat2Z.id, Hf.
  assert (Hin : in_range (buf x) (start x) (len x)).
  { destruct (Nat.eq_dec (len x) 0) as [E|E]; [unfold in_range; lia|]. apply (sees_range x l); auto. lia. }
  unfold in_range in Hin.
  assert (Hsl : slice (buf x ++ junk) (start x) (len x) = l).
  { rewrite <- (slice_sees x l Hc Hs). unfold slice. rewrite skipn_app, firstn_app, skipn_length.
    replace (len x - (length (buf x) - start x))%nat with 0%nat by lia. cbn [firstn]. rewrite app_nil_r. reflexivity. }
  assert (Hl : length l = len x) by apply Hs.
  rewrite mtransform_ok; [|unfold in_range; rewrite app_length; lia|unfold in_range; rewrite app_length; lia|unfold no_clobber; lia].
  rewrite Hsl. cbn [bind]. rewrite written_tail by (rewrite map_length; lia).
  rewrite firstn_tail, skipn_tail. reflexivity.
Qed.

Definition new_array (x : ndarray R) (l : list R) (P : R -> R -> Prop) (r : python (list R * list R)) : Prop :=
  exists l', r = Ok (Some (buf x, l')) /\ Forall2 P l l'.
Lemma map_forall2 (P : R -> R -> Prop) g l : (forall v, P v (g v)) -> Forall2 P l (map g l).
Proof. intros H. induction l; constructor; auto. Qed.
Theorem C97_elementwise_partial : forall x l junk, acceptable x -> contiguous x -> sees x l -> (start x <= length (buf x))%nat ->
  length junk = len x ->
  (forall k, new_array x l (fun v y => y = k * v) (py_scale x k junk)) /\
  (forall k mn mx, mn <= mx -> new_array x l (fun v y => within mn mx y /\ (within mn mx (k * v) -> y = k * v) /\ (k * v <= mn -> y = mn) /\ (mx <= k * v -> y = mx)) (py_scale_clip x k mn mx junk)) /\
  (forall mn mx, mn <= mx -> new_array x l (fun v y => within mn mx y /\ (within mn mx v -> y = v) /\ (v <= mn -> y = mn) /\ (mx <= v -> y = mx)) (py_clip x mn mx junk)) /\
  new_array x l (fun v y => is_integer y /\ y - 1 < v <= y) (py_ceil x junk) /\
  new_array x l (fun v y => is_integer y /\ y <= v < y + 1) (py_floor x junk) /\
  new_array x l (fun v y => is_integer y /\ Rabs (y - v) <= / 2 /\ (Rabs (y - v) = / 2 -> Rabs v < Rabs y)) (py_round x junk) /\
  new_array x l (fun v y => is_integer y /\ Rabs y <= Rabs v < Rabs y + 1 /\ 0 <= y * v) (py_trunc x junk) /\
  new_array x l (fun v y => y = Rabs v) (py_abs x junk).
Proof.
  intros x l junk Ha Hc Hs Hb Hj.
  assert (K : forall g f (P : R -> R -> Prop), (forall m a n d, f m a n d = mtransform (fun v => Ok (g v)) m a d n) -> (forall v, P v (g v)) -> new_array x l P (execute_inplace f junk x)).
  { intros g f P Hf Hp. exists (map g l). split; [apply inplace_ok; auto|apply map_forall2; exact Hp]. }
  split; [intros k; apply (K (fun v => k * v)); [reflexivity|auto]|].
  split; [intros k mn mx H; apply (K (clip_amp k mn mx)); [reflexivity|intros v; apply (clip_spec mn mx (k * v)); exact H]|].
  split; [intros mn mx H; apply (K (clip_fn mn mx)); [reflexivity|intros v; apply clip_spec; exact H]|].
  split; [apply (K cceil); [reflexivity|apply cceil_spec]|]. split; [apply (K cfloor); [reflexivity|apply cfloor_spec]|].
  split; [apply (K cround); [reflexivity|apply cround_spec]|]. split; [apply (K ctrunc); [reflexivity|apply ctrunc_spec]|].
  apply (K Rabs); [reflexivity|auto].
Qed.

(** Normalisation divides a copy by the largest magnitude; silence has none and an empty array is
    read past its end. *)
Theorem C97_normalize_partial : forall x l junk, acceptable x -> contiguous x -> sees x l -> (start x <= length (buf x))%nat ->
  length junk = len x ->
  (l = [] -> py_normalize x junk = UB) /\
  (l <> [] -> (forall v, In v l -> v = 0) -> py_normalize x junk = NonFinite) /\
  ((exists v, In v l /\ v <> 0) -> exists m, is_max (map Rabs l) m /\ py_normalize x junk = Ok (Some (buf x, map (fun v => v / m) l))).
Proof.
  intros x l junk Ha Hc Hs Hb Hj. assert (Hl : length l = len x) by apply Hs.
  assert (Hin : in_range (buf x) (start x) (len x)).
  { destruct (Nat.eq_dec (len x) 0) as [E|E]; [unfold in_range; lia|]. apply (sees_range x l); auto. lia. }
  unfold in_range in Hin.
  assert (Hsl : slice (buf x ++ junk) (start x) (len x) = l).
  { rewrite <- (slice_sees x l Hc Hs). unfold slice. rewrite skipn_app, firstn_app, skipn_length.
    replace (len x - (length (buf x) - start x))%nat with 0%nat by lia. cbn [firstn]. rewrite app_nil_r. reflexivity. }
  unfold py_normalize, execute_inplace. rewrite (int_len_ok x Ha), (proj1 Ha), (proj1 (proj2 Ha)). cbn [Nat.eqb].
  destruct (Z.ltb_spec (Z.of_nat (len x)) 0); [lia|]. rewrite Nat2Z.id. unfold normalize.
  rewrite mrange_slice by (unfold in_range; rewrite app_length; lia). cbn [bind]. rewrite Hsl.
  split; [|split].
  - intros ->. cbn [length] in Hl. rewrite <- Hl. reflexivity.
  - intros Hn Z. destruct (stat_maxabs_ok l Hn) as [m [E [I _]]]. apply in_map_iff in I as [v [Q Hv]]. rewrite (Z v Hv), Rabs_R0 in Q. subst m.
    rewrite E. cbn [bind]. destruct (len x) as [|n] eqn:En; [destruct l; [congruence|discriminate]|].
    rewrite mtransform_res by (unfold in_range, no_clobber; rewrite ?app_length; lia). rewrite Hsl.
    destruct l as [|y t]; [congruence|]. cbn [mapM]. rewrite rdiv_zero. reflexivity.
  - intros [v [Hv NZ]]. assert (Hn : l <> []) by (intros ->; destruct Hv). destruct (stat_maxabs_ok l Hn) as [m [E M]]. exists m. split; [exact M|].
    assert (Pm : 0 < m).
    { pose proof (proj2 M (Rabs v) (in_map Rabs l v Hv)). pose proof (Rabs_pos_lt v NZ). lra. }
    rewrite E. cbn [bind]. destruct (len x) as [|n] eqn:En; [destruct l; [congruence|discriminate]|].
    rewrite mtransform_res by (unfold in_range, no_clobber; rewrite ?app_length; lia). rewrite Hsl.
    assert (Q : mapM (fun v => rdiv v m) l = Ok (map (fun v => v / m) l)).
    { clear - Pm. induction l as [|y t IH]; [reflexivity|]. cbn [mapM map]. rewrite rdiv_ok by lra. cbn [bind]. rewrite IH. reflexivity. }
    rewrite Q. cbn [bind rmap]. rewrite written_tail by (rewrite map_length; lia). rewrite firstn_tail, skipn_tail. reflexivity.
Qed.

(** Arrays that are not one-dimensional raise. *)
Theorem C97_rank : forall (x : ndarray R) junk, ndim x <> 1%nat ->
  (forall c, py_stat c x = Ok None) /\ (forall c, py_feature c x = Ok None) /\ (forall k, py_scale x k junk = Ok None) /\
  py_fft x = Ok None /\ py_dct x = Ok None.
Proof.
  intros x junk H. apply Nat.eqb_neq in H.
  repeat split; intros; try destruct c; cbn; unfold py_feature, py_scale, py_fft, py_dct, execute_int, execute, execute_inplace; rewrite H; reflexivity.
Qed.

(** In general the stride is ignored: the functions use the first [len] consecutive
    elements of the memory, and read past its end when there are fewer. *)
Theorem C97_strided_actual : forall x B (f : list R -> res B), acceptable x ->
  execute_int f x = execute f x /\
  (in_range (buf x) (start x) (len x) -> yields (execute f x) (f (slice (buf x) (start x) (len x)))) /\
  (~ in_range (buf x) (start x) (len x) -> execute f x = UB).
Proof.
  intros x B f Ha. unfold execute, execute_int. rewrite (int_len_ok x Ha), (proj1 Ha). cbn [Nat.eqb]. split; [reflexivity|].
  unfold yields, window_of. rewrite (proj1 (proj2 Ha)), Nat2Z.id. unfold in_range.
  destruct (Z.leb_spec 0 (Z.of_nat (len x))); [|lia]. cbn [andb].
  destruct (Z.leb_spec (Z.of_nat (start x) + Z.of_nat (len x)) (Z.of_nat (length (buf x)))) as [L|L]; split; intros H'; try lia.
  - cbn [bind]. destruct (f _); reflexivity.
  - reflexivity.
Qed.

(** So the mean of every second element of [a, b, c, d] is the mean of a and b, not of a
    and c; and every reversed array of two or more elements is read past its end. *)
Theorem C97_strided_refuted :
  (forall a b c d, let x := mkArr 1 true 0 [a; b; c; d] 0 2 2 in
     sees x [a; c] /\ py_stat SMean x = Ok (Some ((a + b) / 2))) /\
  (forall l c, (2 <= length l)%nat -> (Z.of_nat (length l) < 2 ^ 31)%Z -> let x := mkArr 1 true 0 l (length l - 1) (length l) (-1) in
     sees x (rev l) /\ py_stat c x = UB).
Proof.
  split.
  - intros a b c d x. split.
    + split; [reflexivity|]. intros i Hi. cbn in Hi. destruct i as [|[|i]]; [split; [cbn; lia|reflexivity]|split; [cbn; lia|reflexivity]|lia].
    + assert (Ha : acceptable x) by (repeat split; cbn; lia).
      destruct (C97_strided_actual x R stat_mean Ha) as [E1 [E2 _]]. cbn [py_stat]. unfold c_mean. rewrite E1.
      rewrite E2 by (unfold in_range; cbn; lia). unfold slice. cbn [buf start len x firstn skipn]. unfold stat_mean.
      rewrite rdiv_ok by (cbn; lra). cbn. f_equal. f_equal. lra.
  - intros l c Hl Hb x. split.
    + split; [cbn; apply rev_length|]. intros i Hi. cbn [len start stride buf x] in *. split; [lia|].
      rewrite (nth_error_nth' (rev l) 0) by (rewrite rev_length; lia). rewrite rev_nth by lia.
      rewrite (nth_error_nth' l 0) by lia. f_equal. f_equal. lia.
    + assert (Ha : acceptable x) by (repeat split; cbn; lia).
      assert (U : forall f : list R -> res R, execute_int f x = UB).
      { intros f. destruct (C97_strided_actual x R f Ha) as [-> [_ U]]. apply U. unfold in_range. cbn. lia. }
      destruct c; apply U.
Qed.

(** An array of another element type, such as float32, is not converted or rejected. *)
Theorem C97_dtype_refuted : forall x : ndarray R, ndim x = 1%nat -> is_real x = false ->
  (forall c, py_stat c x = UB) /\ (forall c, py_feature c x = UB).
Proof.
  intros x Hn Hr. split; intros c; [destruct c|]; cbn; unfold py_feature, execute_int, execute, window_of; rewrite Hn, Hr; reflexivity.
Qed.

Example C97_ex : let x := mkArr 1 true 0 [9; 3; 4; 5; 9] 1 3 1 in
  acceptable x /\ contiguous x /\ sees x [3; 4; 5] /\ (start x <= length (buf x))%nat /\ py_stat SMax x = Ok (Some 5) /\
  py_scale x 2 [0; 0; 0] = Ok (Some ([9; 3; 4; 5; 9], [2 * 3; 2 * 4; 2 * 5])).
Proof.
  intros x. assert (Ha : acceptable x) by (repeat split; cbn; lia). assert (Hc : contiguous x) by reflexivity.
  assert (Hs : sees x [3; 4; 5]).
  { split; [reflexivity|]. intros i Hi. cbn in Hi. destruct i as [|[|[|i]]]; try lia; (split; [cbn; lia|reflexivity]). }
  assert (Hb : (start x <= length (buf x))%nat) by (cbn; lia).
  split; [exact Ha|split; [exact Hc|split; [exact Hs|split; [exact Hb|split]]]].
  - destruct (C97_contiguous_partial x _ Ha Hc Hs Hb) as [H _]. rewrite (H SMax) by discriminate. cbn.
    unfold stat_max, max_element, max_scan, idk. cbn. repeat (destruct (Rlt_dec _ _); cbn; try lra); reflexivity.
  - destruct (C97_elementwise_partial x [3; 4; 5] [0; 0; 0] Ha Hc Hs Hb eq_refl) as [H _]. destruct (H 2) as [l' [-> F]].
    inversion F as [|? a ? l1 E1 F1]; subst. inversion F1 as [|? b ? l2 E2 F2]; subst. inversion F2 as [|? c ? l3 E3 F3]; subst. inversion F3; subst. reflexivity.
Qed.

(** ** C98: statistics through the C interface *)

(** Moments up to the eighth are the C++ moments; any other order gives 0. *)
Theorem C98_moment_partial : forall n l, (1 <= n <= 8)%Z -> c_moment n l = stat_moment (Z.to_nat n) l.
Proof.
  intros n l Hn. assert (D : (n = 1 \/ n = 2 \/ n = 3 \/ n = 4 \/ n = 5 \/ n = 6 \/ n = 7 \/ n = 8)%Z) by lia.
  destruct D as [->|[->|[->|[->|[->|[->|[->| ->]]]]]]]; reflexivity.
Qed.
Theorem C98_moment_refuted : forall n l, (n <= 0 \/ 9 <= n)%Z -> c_moment n l = Ok 0.
Proof.
  intros n l Hn. unfold c_moment. destruct n as [|p|p]; [reflexivity| |reflexivity].
  do 4 (destruct p; try reflexivity; try lia).
Qed.


(** The peak of an array that fits an [int] is its first largest element ... *)
Theorem C98_peak : forall l, l <> [] -> (Z.of_nat (length l) < 2 ^ 31)%Z ->
  exists k v, c_peak l = Ok (Z.of_nat k, v) /\ nth_error l k = Some v /\
    (forall i x, nth_error l i = Some x -> x <= v) /\ (forall i x, (i < k)%nat -> nth_error l i = Some x -> x < v).
Proof.
  intros l Hl Hb. destruct (C35_peak l Hl) as [i [v [E [N [M F]]]]]. exists i, v. unfold c_peak, rmap. rewrite E. cbn [bind fst snd].
  assert (i < length l)%nat by (apply nth_error_Some; congruence). rewrite int_small by lia.
  split; [reflexivity|]. split; [exact N|]. split; [|exact F].
  intros j x Hx. apply M. eapply nth_error_In; eauto.
Qed.

(** ... but the absolute peak is the same value: it ignores magnitudes. *)
Theorem C98_peak_abs_actual : forall l, c_peak_abs l = c_peak l.
Proof. reflexivity. Qed.
Theorem C98_peak_abs_refuted : forall a b, 0 <= b < - a ->
  c_peak_abs [a; b] = Ok (1%Z, b) /\ Rabs b < Rabs a.
Proof.
  intros a b H. split; [|rewrite (Rabs_left a), (Rabs_right b) by lra; lra].
  unfold c_peak_abs, stat_peak, max_element, max_scan, idk. cbn. destruct (Rlt_dec a b); [reflexivity|lra].
Qed.
(** The Python peaks are those of the array's elements. *)
Theorem C98_python_peaks_partial : forall x l, acceptable x -> contiguous x -> sees x l -> (start x <= length (buf x))%nat -> l <> [] ->
  exists k v, py_peak x = Ok (Some (Z.of_nat k, v)) /\ py_peak_abs x = Ok (Some (Z.of_nat k, v)) /\ nth_error l k = Some v /\
    (forall i y, nth_error l i = Some y -> y <= v) /\ (forall i y, (i < k)%nat -> nth_error l i = Some y -> y < v).
Proof.
  intros x l Ha Hc Hs Hb Hl. assert (L : length l = len x) by apply Hs. assert (B : (Z.of_nat (len x) < 2 ^ 31)%Z) by apply Ha.
  destruct (C98_peak l Hl ltac:(lia)) as [k [v [E [N [M F]]]]]. exists k, v.
  unfold py_peak, py_peak_abs. destruct (execute_ok c_peak x l Ha Hc Hs Hb) as [_ P1]. destruct (execute_ok c_peak_abs x l Ha Hc Hs Hb) as [_ P2].
  unfold yields in P1, P2. rewrite P1, P2. change (c_peak_abs l) with (c_peak l). rewrite E. auto.
Qed.
Example C98_ex : c_peak_abs [-5; 1] = Ok (1%Z, 1) /\ c_moment 9 [2; 4] = Ok 0 /\ c_moment 2 [2; 4] = stat_moment 2 [2; 4].
Proof. split; [apply C98_peak_abs_refuted; lra|split; reflexivity]. Qed.

(** ** C99: searching *)
Lemma req_true x y : req x y = true <-> x = y.
Proof. unfold req. destruct (Req_EM_T x y); split; congruence. Qed.

Lemma real_order : total_order req rltb Rle.
Proof.
  unfold total_order. split; [exact req_true|]. split.
  - intros x y. unfold rltb. destruct (Rlt_dec x y) as [H|H]; split; intros K; try discriminate; auto; lra.
  - repeat split; intros; lra.
Qed.

Lemma index_first l v k : (Z.of_nat (length l) < 2 ^ 31)%Z -> (In v l -> first_at l v k) -> (~ In v l -> k = length l) -> found_at l v (index_or_minus1 (length l) k).
Proof.
  intros Hb H1 H2. unfold index_or_minus1. destruct (Nat.eqb_spec k (length l)) as [E|E].
  - split; auto. intros HI. destruct (H1 HI) as [N _]. assert (k < length l)%nat by (apply nth_error_Some; congruence). lia.
  - split; [|intros; exfalso; auto]. intros HI. exists k. specialize (H1 HI). split; auto. apply int_small. destruct H1 as [N _].
    assert (k < length l)%nat by (apply nth_error_Some; congruence). lia.
Qed.

Theorem C99_search_partial : forall x l v, acceptable x -> contiguous x -> sees x l -> (start x <= length (buf x))%nat ->
  (exists k, py_linear_search x v = Ok (Some k) /\ found_at l v k) /\
  (exists k, py_index_of x v = Ok (Some k) /\ found_at l v k) /\
  (StronglySorted Rle l -> exists k, py_binary_search x v = Ok (Some k) /\ found_at l v k) /\
  (c_contains v l = true <-> In v l).
Proof.
  intros x l v Ha Hc Hs Hb.
  assert (I : forall B (f : list R -> res B), yields (execute_int f x) (f l)) by (intros; apply execute_ok; auto).
  assert (HL : (Z.of_nat (length l) < 2 ^ 31)%Z) by (destruct Hs as [-> _]; apply Ha).
  destruct (C22_linear_search req l v req_true) as [F1 F2]. unfold yields in I.
  split; [|split; [|split]].
  - eexists. unfold py_linear_search. rewrite I. cbn. split; [reflexivity|]. apply index_first; auto.
  - eexists. unfold py_index_of. rewrite I. cbn. split; [reflexivity|].
    destruct (C22_index_of req l v req_true ltac:(lia)) as [G1 [G2 _]]. split; auto.
    intros HI. exists (linear_search req l v). split; auto.
  - intros HS. destruct (C21_binary_search req rltb Rle l v real_order HS) as [k [E [G1 G2]]].
    eexists. unfold py_binary_search. rewrite I. unfold c_binary_search. rewrite E. cbn. split; [reflexivity|]. apply index_first; auto.
  - unfold c_contains. destruct (Nat.eqb_spec (linear_search req l v) (length l)) as [E|E]; cbn; split; intros; try discriminate; auto.
    + destruct (F1 H) as [N _]. assert (linear_search req l v < length l)%nat by (apply nth_error_Some; congruence). lia.
    + destruct (in_dec Req_EM_T v l); auto. exfalso. auto.
Qed.
(** On any other view of doubles the searches look at the first [len] consecutive elements of the memory. *)
Theorem C99_strided_actual : forall x v, acceptable x ->
  (in_range (buf x) (start x) (len x) -> let l := slice (buf x) (start x) (len x) in
     (exists k, py_linear_search x v = Ok (Some k) /\ found_at l v k) /\
     (exists k, py_index_of x v = Ok (Some k) /\ found_at l v k) /\
     (StronglySorted Rle l -> exists k, py_binary_search x v = Ok (Some k) /\ found_at l v k)) /\
  (~ in_range (buf x) (start x) (len x) -> py_linear_search x v = UB /\ py_index_of x v = UB /\ py_binary_search x v = UB).
Proof.
  intros x v Ha. assert (G : forall f : list R -> res Z, execute_int f x = execute f x /\
    (in_range (buf x) (start x) (len x) -> yields (execute f x) (f (slice (buf x) (start x) (len x)))) /\ (~ in_range (buf x) (start x) (len x) -> execute f x = UB)) by (intros; apply C97_strided_actual; exact Ha).
  split.
  - intros Hr l. assert (HLn : length l = len x) by (unfold l, slice, in_range in *; rewrite firstn_length, skipn_length; lia). assert (HL : (Z.of_nat (length l) < 2 ^ 31)%Z) by (rewrite HLn; apply Ha).
    destruct (C22_linear_search req l v req_true) as [F1 F2]. unfold py_linear_search, py_index_of, py_binary_search.
    split; [|split].
    + destruct (G (c_linear_search v)) as [-> [E _]]. rewrite E by exact Hr. eexists. split; [reflexivity|]. apply index_first; auto.
    + destruct (G (c_index_of v)) as [-> [E _]]. rewrite E by exact Hr. eexists. split; [reflexivity|].
      destruct (C22_index_of req l v req_true ltac:(lia)) as [G1 [G2 _]]. split; auto. intros HI. exists (linear_search req l v). split; auto.
    + intros HS. destruct (C21_binary_search req rltb Rle l v real_order HS) as [k [Ek [G1 G2]]]. destruct (G (c_binary_search v)) as [-> [E _]]. rewrite E by exact Hr. fold l. unfold c_binary_search. rewrite Ek.
      eexists. split; [reflexivity|]. apply index_first; auto.
  - intros Hr. unfold py_linear_search, py_index_of, py_binary_search. destruct (G (c_linear_search v)) as [E1 [_ U1]], (G (c_index_of v)) as [E2 [_ U2]], (G (c_binary_search v)) as [E3 [_ U3]]. rewrite E1, E2, E3, U1, U2, U3 by exact Hr. auto.
Qed.
(** So a value that is the second element of a[::2] is not found there. *)
Theorem C99_strided_refuted : forall a b c d, a <> c -> b <> c -> let x := mkArr 1 true 0 [a; b; c; d] 0 2 2 in
  sees x [a; c] /\ py_linear_search x c = Ok (Some (-1)%Z) /\ py_index_of x c = Ok (Some (-1)%Z).
Proof.
  intros a b c d Ac Bc x. split.
  - split; [reflexivity|]. intros i Hi. cbn in Hi. destruct i as [|[|i]]; [split; [cbn; lia|reflexivity]|split; [cbn; lia|reflexivity]|lia].
  - assert (Ha : acceptable x) by (repeat split; cbn; lia). destruct (C99_strided_actual x c Ha) as [H _]. destruct (H ltac:(unfold in_range; cbn; lia)) as [[k [E1 [_ N1]]] [[k' [E2 [_ N2]]] _]].
    cbn in N1, N2. rewrite E1, E2. rewrite N1, N2; [split; reflexivity| |]; intros [|[|[]]]; auto.
Qed.
(** Other element types are read as doubles; other ranks are refused. *)
Theorem C99_other_arrays : forall (x : ndarray R) v,
  (ndim x <> 1%nat -> py_linear_search x v = Ok None /\ py_index_of x v = Ok None /\ py_binary_search x v = Ok None) /\
  (ndim x = 1%nat -> is_real x = false -> py_linear_search x v = UB /\ py_index_of x v = UB /\ py_binary_search x v = UB).
Proof.
  intros x v. split.
  - intros H. apply Nat.eqb_neq in H. unfold py_linear_search, py_index_of, py_binary_search, execute_int. rewrite H. auto.
  - intros Hn Hr. unfold py_linear_search, py_index_of, py_binary_search, execute_int, window_of. rewrite Hn, Hr. auto.
Qed.
Example C99_ex : let x := fresh_array 0 [1; 3; 3; 7] in
  acceptable x /\ contiguous x /\ sees x [1; 3; 3; 7] /\ StronglySorted Rle [1; 3; 3; 7] /\ py_linear_search x 3 = Ok (Some 1%Z) /\ py_linear_search x 4 = Ok (Some (-1)%Z).
Proof.
  intros x. assert (Ha : acceptable x) by (repeat split; cbn; lia). assert (Hc : contiguous x) by reflexivity.
  assert (Hs : sees x [1; 3; 3; 7]).
  { split; [reflexivity|]. intros i Hi. cbn in Hi. destruct i as [|[|[|[|i]]]]; try lia; (split; [cbn; lia|reflexivity]). }
  assert (Hb : (start x <= length (buf x))%nat) by (cbn; lia).
  split; [exact Ha|split; [exact Hc|split; [exact Hs|split; [repeat constructor; lra|]]]].
  unfold py_linear_search. destruct (execute_ok (c_linear_search 3) x _ Ha Hc Hs Hb) as [_ E1]. destruct (execute_ok (c_linear_search 4) x _ Ha Hc Hs Hb) as [_ E2].
  rewrite E1, E2. unfold c_linear_search, linear_search. cbn. unfold req.
  split; repeat (destruct (Req_EM_T _ _); try lra; cbn); reflexivity.
Qed.

(** ** C100: functions of two arrays *)

(** Two ordinary arrays of one length: the C++ function of their elements. *)
Theorem C100_equal_lengths_partial : forall x y a b, acceptable x -> contiguous x -> sees x a -> (start x <= length (buf x))%nat ->
  acceptable y -> contiguous y -> sees y b -> (start y <= length (buf y))%nat -> len x = len y ->
  yields (py_conv x y) (conv a b) /\ yields (py_xcorr x y) (xcorr a b ScaleNone) /\ yields (py_ri2complex x y) (real2complex2 a b) /\
  yields (py_weighted_centroid x y) (feat_weighted_centroid a b) /\ yields (py_weighted_spread x y) (feat_weighted_spread a b) /\
  yields (py_slope x y) (feat_slope a b).
Proof.
  intros x y a b Ha Hc Hs Hb Ha' Hc' Hs' Hb' E.
  pose proof (window_ok x a Ha Hc Hs Hb) as W. pose proof (window_ok y b Ha' Hc' Hs' Hb') as W'. rewrite <- E in W'.
  unfold yields, py_conv, py_xcorr, py_ri2complex, py_weighted_centroid, py_weighted_spread, py_slope, execute_pair, execute_two_inputs.
  rewrite (int_len_ok x Ha), (proj1 Ha), (proj1 Ha'), W, W'. cbn [Nat.eqb andb negb bind].
  repeat split; match goal with |- rmap _ ?r = _ => destruct r; reflexivity end.
Qed.

(** A second array shorter than the first is read past its end, not rejected ... *)
Theorem C100_short_second_refuted : forall x y a b, acceptable x -> contiguous x -> sees x a -> (start x <= length (buf x))%nat ->
  acceptable y -> contiguous y -> sees y b -> (length (buf y) = start y + len y)%nat -> (len y < len x)%nat ->
  py_conv x y = UB /\ py_xcorr x y = UB /\ py_ri2complex x y = UB /\ py_weighted_centroid x y = UB /\ py_weighted_spread x y = UB /\
  py_slope x y = UB.
Proof.
  intros x y a b Ha Hc Hs Hb Ha' Hc' Hs' Hb' E.
  pose proof (window_ok x a Ha Hc Hs Hb) as W.
  assert (W' : window_of y (Z.of_nat (len x)) = UB).
  { unfold window_of. rewrite (proj1 (proj2 Ha')). destruct (Z.leb_spec (Z.of_nat (start y) + Z.of_nat (len x)) (Z.of_nat (length (buf y)))); [lia|].
    rewrite andb_false_r. reflexivity. }
  unfold py_conv, py_xcorr, py_ri2complex, py_weighted_centroid, py_weighted_spread, py_slope, execute_pair, execute_two_inputs.
  rewrite (int_len_ok x Ha), (proj1 Ha), (proj1 Ha'), W, W'. cbn [Nat.eqb andb negb bind]. repeat split.
Qed.
(** ... and a longer one is silently cut. *)
Theorem C100_long_second_refuted : forall x y a b c, acceptable x -> contiguous x -> sees x a -> (start x <= length (buf x))%nat ->
  acceptable y -> contiguous y -> sees y (b ++ c) -> length b = length a -> c <> [] ->
  yields (py_conv x y) (conv a b) /\ yields (py_xcorr x y) (xcorr a b ScaleNone) /\ yields (py_ri2complex x y) (real2complex2 a b).
Proof.
  intros x y a b c Ha Hc Hs Hb Ha' Hc' Hs' Hl Hn.
  pose proof (window_ok x a Ha Hc Hs Hb) as W.
  assert (Hx : len x = length b) by (rewrite Hl; symmetry; apply Hs).
  assert (Hy : (0 < len y)%nat).
  { destruct Hs' as [<- _]. rewrite app_length. destruct c; [congruence|cbn; lia]. }
  assert (W' : window_of y (Z.of_nat (len x)) = Ok b).
  { pose proof (sees_range y _ Hc' Hs' Hy) as Hr. unfold in_range in Hr. pose proof (slice_sees y _ Hc' Hs') as Hsl.
    assert (length b + length c = len y)%nat by (destruct Hs' as [<- _]; rewrite app_length; lia).
    unfold window_of. rewrite (proj1 (proj2 Ha')), Nat2Z.id.
    destruct (Z.leb_spec 0 (Z.of_nat (len x))); [|lia].
    destruct (Z.leb_spec (Z.of_nat (start y) + Z.of_nat (len x)) (Z.of_nat (length (buf y)))); [|lia]. cbn [andb]. f_equal.
    transitivity (firstn (length b) (b ++ c)); [|apply firstn_tail]. rewrite <- Hsl. unfold slice. rewrite firstn_firstn, Hx. f_equal. lia. }
  unfold yields, py_conv, py_xcorr, py_ri2complex, execute_pair.
  rewrite (int_len_ok x Ha), (proj1 Ha), (proj1 Ha'), W, W'. cbn [Nat.eqb andb negb bind].
  repeat split; match goal with |- rmap _ ?r = _ => destruct r; reflexivity end.
Qed.
(** A matrix as one of the two arguments is refused by conv and xcorr, but not by the features. *)
Theorem C100_rank_actual : forall x y, (ndim x <> 1 \/ ndim y <> 1)%nat ->
  py_conv x y = Ok None /\ py_xcorr x y = Ok None /\ py_ri2complex x y = Ok None /\
  ((ndim x <> 1 /\ ndim y <> 1)%nat <-> py_weighted_centroid x y = Ok None).
Proof.
  intros x y H. unfold py_conv, py_xcorr, py_ri2complex, execute_pair, py_weighted_centroid, execute_two_inputs.
  assert (E : (ndim x =? 1)%nat && (ndim y =? 1)%nat = false).
  { destruct (Nat.eqb_spec (ndim x) 1), (Nat.eqb_spec (ndim y) 1); auto; lia. }
  rewrite E. split; [|split; [|split]]; auto.
  destruct (Nat.eqb_spec (ndim x) 1), (Nat.eqb_spec (ndim y) 1); cbn [negb andb]; split; intros K; try lia; try reflexivity; exfalso;
    (destruct (window_of x _); try discriminate; destruct (window_of y _); try discriminate; cbn [bind] in K; destruct (feat_weighted_centroid _ _); discriminate).
Qed.
(** Spectral flux of two arrays with memory of their own, such as any two results of
    numpy functions, is never defined. *)
Theorem C100_flux_refuted : forall x y, ndim x = 1%nat -> block x <> block y -> py_flux x y = UB.
Proof.
  intros x y H B. unfold py_flux. rewrite H. cbn [Nat.eqb negb andb]. apply Nat.eqb_neq in B. rewrite B, andb_false_r. reflexivity.
Qed.
(** It refuses two matrices, but not one; for the two halves of one array it returns a value. *)
Theorem C100_flux_actual : forall x y,
  (py_flux x y = Ok None <-> (ndim x <> 1 /\ ndim y <> 1)%nat) /\
  (ndim x = 1%nat \/ ndim y = 1%nat -> is_real x = true -> is_real y = true -> block x = block y -> start x = 0%nat -> start y = len x ->
   length (buf x) = (len x + len x)%nat ->
   let a := firstn (len x) (buf x) in let b := skipn (len x) (buf x) in rsum a <> 0 -> rsum a + rsum b <> 0 ->
   py_flux x y = Ok (Some (rsum2 (fun u v => (u / rsum a - v / (rsum a + rsum b)) ^ 2) a b))).
Proof.
  intros x y. split.
  - unfold py_flux. destruct (Nat.eqb_spec (ndim x) 1), (Nat.eqb_spec (ndim y) 1); cbn [negb andb]; split; intros K; try lia; try reflexivity; exfalso;
      (destruct (is_real x && is_real y && (block x =? block y)%nat); [|discriminate K]; destruct (feat_flux _ _ _ _ _); discriminate K).
  - intros D Rx Ry B Sx Sy L a b Ha Hab. unfold py_flux.
    assert (E : negb (ndim x =? 1)%nat && negb (ndim y =? 1)%nat = false) by (destruct D as [-> | ->]; cbn [Nat.eqb negb]; [reflexivity|apply andb_false_r]).
    rewrite E, Rx, Ry, B, Nat.eqb_refl. cbn [andb]. rewrite Sx, Sy.
    assert (E1 : slice (buf x) 0 (len x) = a) by reflexivity.
    assert (E2 : slice (buf x) (len x) (len x) = b) by (unfold slice, b; apply firstn_all2; rewrite skipn_length; lia).
    pose proof (C40_flux_actual (buf x) (len x) L) as F. cbv zeta in F. rewrite E1, E2 in F. rewrite F by auto. reflexivity.
Qed.
(** Equality compares lengths first and then the elements. *)
Theorem C100_equal_partial : forall x y a b, acceptable x -> contiguous x -> sees x a -> (start x <= length (buf x))%nat ->
  acceptable y -> contiguous y -> sees y b -> (start y <= length (buf y))%nat ->
  exists r, py_equal x y = Ok (Some r) /\ (r = true <-> a = b).
Proof.
  intros x y a b Ha Hc Hs Hb Ha' Hc' Hs' Hb'.
  pose proof (window_ok x a Ha Hc Hs Hb) as W. pose proof (window_ok y b Ha' Hc' Hs' Hb') as W'.
  unfold py_equal. rewrite (proj1 Ha), (proj1 Ha'), (int_len_ok x Ha). cbn [Nat.eqb andb].
  destruct (Nat.eqb_spec (len x) (len y)) as [E|E].
  - rewrite W, E, W'. cbn [bind]. eexists. split; [reflexivity|]. rewrite equal_fn_spec. split.
    + intros [L H]. apply nth_error_ext_eq. intros i. destruct (nth_error a i) as [u|] eqn:A.
      * destruct (nth_error b i) as [v|] eqn:B; [f_equal; apply req_true; eauto|]. apply nth_error_None in B.
        assert (i < length a)%nat by (apply nth_error_Some; congruence). lia.
      * symmetry. apply nth_error_None. apply nth_error_None in A. lia.
    + intros ->. split; auto. intros i u v A B. apply req_true. congruence.
  - exists false. split; auto. split; [discriminate|]. intros ->. exfalso. apply E. destruct Hs as [<- _], Hs' as [<- _]. reflexivity.
Qed.
Lemma fresh_ok {A} b (l : list A) : (Z.of_nat (length l) < 2 ^ 31)%Z -> acceptable (fresh_array b l) /\ contiguous (fresh_array b l) /\ sees (fresh_array b l) l /\ (start (fresh_array b l) <= length (buf (fresh_array b l)))%nat.
Proof.
  intros H. split; [repeat split; cbn; auto|]. split; [reflexivity|]. split; [|cbn; lia].
  split; [reflexivity|]. intros i Hi. cbn [len stride start buf fresh_array] in *. split; [lia|]. f_equal. lia.
Qed.
Example C100_ex : py_conv (fresh_array 0 [1; 2; 3]) (fresh_array 1 [1]) = UB /\ py_flux (fresh_array 0 [1; 2]) (fresh_array 1 [1; 2]) = UB.
Proof.
  split; [|apply C100_flux_refuted; cbn; lia].
  destruct (fresh_ok 0 [1; 2; 3] ltac:(cbn; lia)) as [A1 [A2 [A3 A4]]]. destruct (fresh_ok 1 [1] ltac:(cbn; lia)) as [B1 [B2 [B3 B4]]].
  apply (C100_short_second_refuted _ _ _ _ A1 A2 A3 A4 B1 B2 B3); cbn; lia.
Qed.

(** ** C101: complex arrays *)

(** Conversion of a real array to complex numbers does not look at the array: every
    element but the first is zero, and the first is what the memory held before. *)
Lemma overlapped_zero n : forall m i, (1 <= i)%nat -> (2 * (i + n) <= length m)%nat ->
  (forall j, (i <= j < 2 * i)%nat -> nth_error m j = Some 0) ->
  exists m', overlapped_real2complex m i n = Ok m' /\ length m' = length m /\
    (forall j, (j < 2 * i)%nat -> nth_error m' j = nth_error m j) /\
    (forall j, (2 * i <= j < 2 * (i + n))%nat -> nth_error m' j = Some 0) /\ (forall j, (2 * (i + n) <= j)%nat -> nth_error m' j = nth_error m j).
Proof.
  induction n as [|n IH]; intros m i Hi Hl Hz; cbn [overlapped_real2complex].
  - exists m. repeat split; auto. intros; lia.
  - assert (L : load m i = Ok 0) by (unfold load; rewrite Hz by lia; reflexivity). rewrite L. cbn [bind].
    destruct (store_ok m (2 * i) 0 ltac:(lia)) as [m1 [E1 [L1 [N1 O1]]]]. rewrite E1. cbn [bind].
    destruct (store_ok m1 (2 * i + 1) 0 ltac:(lia)) as [m2 [E2 [L2 [N2 O2]]]]. rewrite E2. cbn [bind].
    destruct (IH m2 (S i)) as [m' [E' [L' [P1 [P2 P3]]]]]; [lia|lia| |].
    + intros j Hj. destruct (Nat.eq_dec j (2 * i + 1)) as [->|J1]; auto. rewrite O2 by auto.
      destruct (Nat.eq_dec j (2 * i)) as [->|J2]; auto. rewrite O1 by auto. apply Hz. lia.
    + exists m'. split; auto. split; [lia|]. split; [|split].
      * intros j Hj. rewrite P1, O2, O1 by lia. reflexivity.
      * intros j Hj. destruct (Nat.eq_dec j (2 * i + 1)) as [->|J1]; [rewrite P1 by lia; auto|].
        destruct (Nat.eq_dec j (2 * i)) as [->|J2]; [rewrite P1, O2 by lia; auto|]. apply P2. lia.
      * intros j Hj. rewrite P3, O2, O1 by lia. reflexivity.
Qed.
Lemma pairs_zero n : pairs (repeat 0 (2 * n)) = repeat C0 n.
Proof. induction n as [|n IH]; [reflexivity|]. replace (2 * S n)%nat with (S (S (2 * n))) by lia. cbn [repeat pairs]. rewrite IH. reflexivity. Qed.
Theorem C101_real2complex_actual : forall x junk, ndim x = 1%nat -> (0 < len x)%nat -> length junk = (2 * len x)%nat ->
  py_real2complex junk x = Ok (Some ((nth 0 junk 0, 0) :: repeat C0 (len x - 1))).
Proof.
  intros x junk Hn Hp Hj. unfold py_real2complex. rewrite Hn. cbn [Nat.eqb].
  destruct (len x) as [|n]; [lia|]. destruct junk as [|a [|b junk]]; try (cbn in Hj; lia).
  cbn [overlapped_real2complex]. cbn [load nth_error bind Nat.mul Nat.add store].
  destruct (overlapped_zero n (a :: 0 :: junk) 1) as [m [E [L [P1 [P2 _]]]]]; [lia|cbn [length] in *; lia| |].
  { intros j Hj'. assert (j = 1%nat) by lia. subst j. reflexivity. }
  match goal with |- bind ?e _ = _ => replace e with (Ok m) by (symmetry; exact E) end. cbn [bind].
  assert (M : m = a :: 0 :: repeat 0 (2 * n)).
  { apply nth_error_ext_eq. intros j. destruct j as [|[|j]]; [rewrite P1 by lia; reflexivity|rewrite P1 by lia; reflexivity|].
    cbn [length] in *. destruct (Nat.lt_ge_cases j (2 * n)) as [J|J].
    - rewrite P2 by lia. symmetry. apply (nth_error_repeat 0); auto.
    - transitivity (@None R); [apply nth_error_None; lia|symmetry; apply nth_error_None; cbn [length]; rewrite repeat_length; lia]. }
  rewrite M. cbn [pairs nth]. rewrite pairs_zero. replace (S n - 1)%nat with n by lia. reflexivity.
Qed.
Theorem C101_real2complex_refuted : forall x l junk, acceptable x -> contiguous x -> sees x l -> length junk = (2 * len x)%nat ->
  (exists i v, (1 <= i)%nat /\ nth_error l i = Some v /\ v <> 0) -> py_real2complex junk x <> Ok (Some (real2complex1 l)).
Proof.
  intros x l junk Ha Hc Hs Hj [i [v [Hi [Hv Hz]]]] K.
  assert (Hlt : (i < len x)%nat) by (destruct Hs as [<- _]; apply nth_error_Some; congruence).
  rewrite C101_real2complex_actual in K by (auto; try apply Ha; lia). injection K as K.
  assert (E : nth_error (real2complex1 l) i = Some (v, 0)) by (unfold real2complex1; apply (map_nth_error (fun r => (r, 0))); auto).
  rewrite <- K in E. destruct i as [|i]; [lia|]. cbn [nth_error] in E. rewrite nth_error_repeat in E by lia. injection E as E. auto.
Qed.
(** Real and imaginary parts, and joining them, work. *)
Lemma join_parts (l : list C) : real2complex2 (map Re l) (map Im l) = Ok l.
Proof. induction l as [|[a b] l IH]; [reflexivity|]. cbn [map real2complex2]. rewrite IH. reflexivity. Qed.
Theorem C101_parts_partial : forall x l b1 b2, acceptable x -> contiguous x -> sees x l -> (start x <= length (buf x))%nat ->
  exists re im, py_complex2real x = Ok (Some (re, im)) /\ re = map fst l /\ im = map snd l /\
    py_ri2complex (fresh_array b1 re) (fresh_array b2 im) = Ok (Some l).
Proof.
  intros x l b1 b2 Ha Hc Hs Hb. destruct (execute_ok (fun l => Ok (complex2real l)) x l Ha Hc Hs Hb) as [E _].
  exists (map fst l), (map snd l). split; [exact E|]. split; auto. split; auto.
  assert (Hl : (Z.of_nat (length l) < 2 ^ 31)%Z) by (destruct Hs as [-> _]; apply Ha).
  destruct (fresh_ok b1 (map fst l)) as [A1 [A2 [A3 A4]]]; [rewrite map_length; auto|].
  destruct (fresh_ok b2 (map snd l)) as [B1 [B2 [B3 B4]]]; [rewrite map_length; auto|].
  destruct (C100_equal_lengths_partial _ _ _ _ A1 A2 A3 A4 B1 B2 B3 B4) as [_ [_ [H _]]]; [cbn; rewrite !map_length; auto|].
  rewrite H. change (map fst l) with (map Re l). change (map snd l) with (map Im l). rewrite join_parts. reflexivity.
Qed.
Example C101_ex : py_real2complex [7; 8; 9; 10] (fresh_array 0 [1; 2]) = Ok (Some [(7, 0); (0, 0)]).
Proof. rewrite C101_real2complex_actual by (cbn; lia). reflexivity. Qed.

(** ** C102: Fourier transforms of numpy arrays *)
Theorem C102_complex_partial : forall x l b, acceptable x -> contiguous x -> sees x l -> (start x <= length (buf x))%nat -> (0 < len x)%nat ->
  exists X, py_cfft x = Ok (Some X) /\ length X = len x /\ py_cifft (fresh_array b X) = Ok (Some l).
Proof.
  intros x l b Ha Hc Hs Hb Hp. assert (L : length l = len x) by apply Hs.
  assert (F : fits (length l)) by (split; [|destruct Ha as [_ [_ Ha]]]; lia).
  destruct (C51_cdft l F) as [X [E [T _]]]. exists X. unfold py_cfft, py_cifft.
  destruct (execute_ok cdft x l Ha Hc Hs Hb) as [_ R1]. rewrite R1, E. split; auto. split; [lia|].
  destruct (fresh_ok b X ltac:(destruct F; lia)) as [A1 [A2 [A3 A4]]].
  destruct (execute_ok cidft _ X A1 A2 A3 A4) as [_ R2]. rewrite R2, (C51_complex_round_trip l X F E). reflexivity.
Qed.

Lemma result_exact {A} (z : A) n out : (n = Z.of_nat (length out)) -> py_result z n out = Ok (Some out).
Proof.
  intros ->. unfold py_result. destruct (Z.ltb_spec (Z.of_nat (length out)) 0); [lia|].
  destruct (Z.leb_spec (Z.of_nat (length out)) (Z.of_nat (length out))); [|lia]. rewrite Nat2Z.id, Nat.sub_diag. cbn [repeat]. rewrite app_nil_r. reflexivity.
Qed.
Lemma fft_shape n : (Z.of_nat n < 2 ^ 31)%Z -> (0 < n)%nat -> c_get_fft_size (Z.of_nat n) = Z.of_nat (n / 2 + 1).
Proof.
  intros H P. unfold c_get_fft_size. replace (Z.of_nat n / 2)%Z with (Z.of_nat (n / 2)) by (rewrite Nat2Z.inj_div; reflexivity).
  pose proof (Nat.div_lt n 2 P ltac:(lia)). rewrite int_small; lia.
Qed.

(** The spectrum of a real array has n/2+1 values, the transform's. *)
Theorem C102_rfft_partial : forall x l, acceptable x -> contiguous x -> sees x l -> (start x <= length (buf x))%nat -> (0 < len x)%nat ->
  exists H, py_fft x = Ok (Some H) /\ dft l = Ok H /\ length H = (len x / 2 + 1)%nat.
Proof.
  intros x l Ha Hc Hs Hb Hp. assert (L : length l = len x) by apply Hs. assert (B : (Z.of_nat (len x) < 2 ^ 31)%Z) by apply Ha.
  destruct (C51_dft l ltac:(split; lia)) as [H [E [T _]]]. exists H. rewrite L in T.
  unfold py_fft. rewrite (int_len_ok x Ha), (proj1 Ha), (window_ok x l) by auto. cbn [Nat.eqb bind]. rewrite E. cbn [bind].
  rewrite result_exact by (rewrite T; apply fft_shape; auto). auto.
Qed.

(** The power spectrum of an array: n/2+1 squared magnitudes of its transform. *)
Theorem C102_spectrum_partial : forall x l, acceptable x -> contiguous x -> sees x l -> (start x <= length (buf x))%nat -> (0 < len x)%nat ->
  exists s, py_spectrum x = Ok (Some s) /\ tabulates s (len x / 2 + 1) (fun k => Cnorm2 (rfourier l k)).
Proof.
  intros x l Ha Hc Hs Hb Hp. assert (L : length l = len x) by apply Hs. assert (B : (Z.of_nat (len x) < 2 ^ 31)%Z) by apply Ha.
  destruct (C80_spectrum l ltac:(split; lia)) as [s [E T]]. exists s. rewrite L in T. split; auto.
  unfold py_spectrum. rewrite (int_len_ok x Ha), (proj1 Ha), (window_ok x l) by auto. cbn [Nat.eqb bind]. rewrite E. cbn [bind].
  apply result_exact. rewrite (proj1 T). apply fft_shape; auto.
Qed.

(** Back and forth: an even number of samples returns; an odd one comes back one short. *)
Theorem C102_even_partial : forall x l H b, acceptable x -> contiguous x -> sees x l -> (start x <= length (buf x))%nat -> (0 < len x)%nat ->
  Nat.even (len x) = true -> py_fft x = Ok (Some H) -> py_ifft (fresh_array b H) = Ok (Some l).
Proof.
  intros x l H b Ha Hc Hs Hb Hp Ev E. assert (L : length l = len x) by apply Hs. assert (B : (Z.of_nat (len x) < 2 ^ 31)%Z) by apply Ha.
  destruct (C102_rfft_partial x l Ha Hc Hs Hb Hp) as [H' [E' [D T]]]. assert (H' = H) by congruence. subst H'.
  apply Nat.even_spec in Ev as Ev'. destruct Ev' as [h Hh].
  assert (Hd : (len x / 2 = h)%nat) by (rewrite Hh, Nat.mul_comm; apply Nat.div_mul; lia). rewrite Hd in T.
  destruct (fresh_ok b H ltac:(lia)) as [A1 [A2 [A3 A4]]].
  unfold py_ifft. rewrite (int_len_ok _ A1), (window_ok _ H) by auto. cbn [ndim fresh_array Nat.eqb bind].
  rewrite (C51_real_round_trip l H) by (auto; rewrite ?L; auto; split; lia). cbn [bind len fresh_array].
  apply result_exact. unfold c_get_ifft_size. rewrite int_small; lia.
Qed.
Theorem C102_odd_refuted : forall x l H b, acceptable x -> contiguous x -> sees x l -> (start x <= length (buf x))%nat -> (0 < len x)%nat ->
  Nat.odd (len x) = true -> py_fft x = Ok (Some H) ->
  (len x = 1%nat /\ py_ifft (fresh_array b H) = UB) \/ exists y, py_ifft (fresh_array b H) = Ok (Some y) /\ length y = (len x - 1)%nat.
Proof.
  intros x l H b Ha Hc Hs Hb Hp Od E. assert (L : length l = len x) by apply Hs. assert (B : (Z.of_nat (len x) < 2 ^ 31)%Z) by apply Ha.
  destruct (C102_rfft_partial x l Ha Hc Hs Hb Hp) as [H' [E' [D T]]]. assert (H' = H) by congruence. subst H'.
  apply Nat.odd_spec in Od as Od'. destruct Od' as [h Hh].
  assert (Hd : (len x / 2 = h)%nat) by (rewrite Hh; symmetry; apply (Nat.div_unique _ 2 h 1); lia). rewrite Hd in T.
  destruct (fresh_ok b H ltac:(lia)) as [A1 [A2 [A3 A4]]].
  unfold py_ifft. rewrite (int_len_ok _ A1), (window_ok _ H) by auto. cbn [ndim fresh_array Nat.eqb bind].
  destruct (C51_odd_length l H) as [[O1 O2]|[y [O1 O2]]]; [split; lia|rewrite L; auto|auto| |].
  - left. split; [lia|]. rewrite O2. reflexivity.
  - right. exists y. rewrite O1. cbn [bind len fresh_array]. split; [|lia]. apply result_exact. unfold c_get_ifft_size. rewrite int_small; lia.
Qed.
Example C102_ex : exists H, py_fft (fresh_array 0 [1; 2; 3; 4]) = Ok (Some H) /\ length H = 3%nat /\ py_ifft (fresh_array 1 H) = Ok (Some [1; 2; 3; 4]).
Proof.
  destruct (fresh_ok 0 [1; 2; 3; 4] ltac:(cbn; lia)) as [A1 [A2 [A3 A4]]].
  destruct (C102_rfft_partial _ _ A1 A2 A3 A4) as [H [E [_ T]]]; [cbn; lia|]. exists H. split; auto. split; auto.
  apply (C102_even_partial _ _ H 1 A1 A2 A3 A4); auto; cbn; lia.
Qed.

(** ** C103: joining and padding *)
Lemma slice_middle {A} (a b c : list A) s n : (s + n <= length b)%nat -> slice (a ++ b ++ c) (length a + s) n = slice b s n.
Proof.
  intros H. apply nth_error_ext_eq. intros i. rewrite !nth_slice. destruct (Nat.ltb_spec i n); auto.
  rewrite nth_error_app2 by lia. rewrite nth_error_app1 by lia. f_equal. lia.
Qed.
Lemma sees_in {A} (x : ndarray A) l : contiguous x -> sees x l -> (start x <= length (buf x))%nat -> in_range (buf x) (start x) (len x).
Proof. intros Hc Hs Hb. destruct (Nat.eq_dec (len x) 0) as [E|E]; [unfold in_range; lia|]. apply (sees_range x l); auto. lia. Qed.

Theorem C103_concatenate_partial : forall x y a b junk, acceptable x -> contiguous x -> sees x a -> (start x <= length (buf x))%nat ->
  acceptable y -> contiguous y -> sees y b -> (start y <= length (buf y))%nat -> length junk = (len x + len y)%nat ->
  py_concatenate x y junk = Ok (Some (a ++ b)).
Proof.
  intros x y a b junk Ha Hc Hs Hb Ha' Hc' Hs' Hb' Hj. unfold py_concatenate.
  rewrite (proj1 Ha), (proj1 Ha'), (proj1 (proj2 Ha)), (proj1 (proj2 Ha')), (int_len_ok x Ha), (int_len_ok y Ha'). cbn [Nat.eqb andb].
  destruct (Z.leb_spec 0 (Z.of_nat (len x))); [|lia]. destruct (Z.leb_spec 0 (Z.of_nat (len y))); [|lia]. cbn [andb]. rewrite !Nat2Z.id.
  pose proof (sees_in x a Hc Hs Hb) as R1. pose proof (sees_in y b Hc' Hs' Hb') as R2. unfold in_range in R1, R2.
  rewrite concatenate_ok; try (unfold in_range, no_clobber; rewrite ?app_length; lia).
  cbn [bind]. rewrite (slice_middle (buf x) (buf y) junk) by lia. pose proof (slice_middle [] (buf x) (buf y ++ junk) (start x) (len x) ltac:(lia)) as E.
  cbn [app length Nat.add] in E. rewrite E, (slice_sees x a), (slice_sees y b) by auto.
  assert (L1 : length a = len x) by apply Hs. assert (L2 : length b = len y) by apply Hs'.
  rewrite app_assoc, <- app_length. rewrite written_tail by (rewrite app_length; lia). rewrite skipn_tail. reflexivity.
Qed.
Theorem C103_pad_partial : forall x a junk, acceptable x -> contiguous x -> sees x a -> (start x <= length (buf x))%nat -> (len x <= length junk)%nat ->
  py_pad x junk = Ok (Some (a ++ repeat 0 (length junk - len x))).
Proof.
  intros x a junk Ha Hc Hs Hb Hj. unfold py_pad. rewrite (proj1 Ha), (proj1 (proj2 Ha)), (int_len_ok x Ha). cbn [Nat.eqb andb].
  destruct (Z.leb_spec 0 (Z.of_nat (len x))); [|lia]. rewrite Nat2Z.id. pose proof (sees_in x a Hc Hs Hb) as R1. unfold in_range in R1.
  rewrite padder_ok; try (unfold in_range, no_clobber; rewrite ?app_length; lia). cbn [bind].
  pose proof (slice_middle [] (buf x) junk (start x) (len x) ltac:(lia)) as E. cbn [app length Nat.add] in E. rewrite E, (slice_sees x a) by auto.
  assert (L1 : length a = len x) by apply Hs.
  rewrite written_tail by (rewrite app_length, repeat_length; lia). rewrite skipn_tail. reflexivity.
Qed.

(** Padding to fewer elements than the array has is not rejected. *)
Theorem C103_pad_short_refuted : forall x junk, acceptable x -> (length junk < len x)%nat -> py_pad x junk = UB.
Proof.
  intros x junk Ha Hj. unfold py_pad. rewrite (proj1 Ha), (proj1 (proj2 Ha)), (int_len_ok x Ha). cbn [Nat.eqb andb].
  destruct (Z.leb_spec 0 (Z.of_nat (len x))); [|lia]. rewrite Nat2Z.id. unfold padder.
  destruct (Nat.ltb_spec (length junk) (len x)); [reflexivity|lia].
Qed.
Example C103_ex : py_concatenate (fresh_array 0 [1; 2]) (fresh_array 1 [3]) [9; 9; 9] = Ok (Some [1; 2; 3]) /\
  py_pad (fresh_array 0 [1; 2]) [9; 9; 9] = Ok (Some [1; 2; 0]) /\ py_pad (fresh_array 0 [1; 2]) [9] = UB.
Proof.
  destruct (fresh_ok 0 [1; 2] ltac:(cbn; lia)) as [A1 [A2 [A3 A4]]]. destruct (fresh_ok 1 [3] ltac:(cbn; lia)) as [B1 [B2 [B3 B4]]].
  split; [|split].
  - apply (C103_concatenate_partial _ _ _ _ _ A1 A2 A3 A4 B1 B2 B3 B4); reflexivity.
  - rewrite (C103_pad_partial _ _ [9; 9; 9] A1 A2 A3 A4) by (cbn; lia). reflexivity.
  - apply C103_pad_short_refuted; auto; cbn; lia.
Qed.

(** ** C104: objects that produce or filter arrays in pieces *)
Lemma osc_run_app tick m n : forall o,
  osc_run tick o (m + n) = bind (osc_run tick o m) (fun p => bind (osc_run tick (fst p) n) (fun q => Ok (fst q, snd p ++ snd q))).
Proof.
  induction m as [|m IH]; intros o; cbn [Nat.add osc_run].
  - cbn [bind fst snd app]. destruct (osc_run tick o n) as [[o' l]| |]; reflexivity.
  - destruct (tick o) as [[o1 v]| |]; cbn [bind fst snd]; auto. rewrite IH.
    destruct (osc_run tick o1 m) as [[o2 l]| |]; cbn [bind fst snd]; auto.
    destruct (osc_run tick o2 n) as [[o3 l']| |]; reflexivity.
Qed.

(** Generating [m] and then [n] samples gives the samples, and leaves the oscillator, of
    one call for [m + n]. *)
Theorem C104_generate : forall tick o m n o1 a o2 b, (0 <= m)%Z -> (0 <= n)%Z ->
  py_generate tick o m = Ok (Some (o1, a)) -> py_generate tick o1 n = Ok (Some (o2, b)) ->
  py_generate tick o (m + n) = Ok (Some (o2, a ++ b)) /\ length a = Z.to_nat m /\ length b = Z.to_nat n.
Proof.
  intros tick o m n o1 a o2 b Hm Hn. unfold py_generate, rmap.
  destruct (Z.ltb_spec m 0); [lia|]. destruct (Z.ltb_spec n 0); [lia|]. destruct (Z.ltb_spec (m + n) 0); [lia|].
  assert (LL : forall k o o' l, osc_run tick o k = Ok (o', l) -> length l = k).
  { induction k as [|k IH]; intros q q' l; cbn [osc_run]; [intros E; injection E as _ <-; reflexivity|].
    destruct (tick q) as [[q1 v]| |]; cbn [bind fst snd]; try discriminate.
    destruct (osc_run tick q1 k) as [[q2 l2]| |] eqn:K; cbn [bind fst snd]; try discriminate. intros E. injection E as <- <-. cbn [length]. f_equal. eauto. }
  destruct (osc_run tick o (Z.to_nat m)) as [[p1 l1]| |] eqn:E1; cbn [bind]; try discriminate. intros E. injection E as -> ->.
  destruct (osc_run tick o1 (Z.to_nat n)) as [[p2 l2]| |] eqn:E2; cbn [bind]; try discriminate. intros E. injection E as -> ->.
  rewrite Z2Nat.inj_add, osc_run_app, E1 by lia. cbn [bind fst snd]. rewrite E2. cbn [bind fst snd]. split; auto. split; eauto.
Qed.

(** Filtering an array in two pieces is filtering it in one, for contiguous doubles. *)
Theorem C104_filter_partial : forall {S} (tick : S -> R -> res (S * R)) s x y z a b s1 u s2 v,
  acceptable x -> contiguous x -> sees x a -> (start x <= length (buf x))%nat ->
  acceptable y -> contiguous y -> sees y b -> (start y <= length (buf y))%nat ->
  acceptable z -> contiguous z -> sees z (a ++ b) -> (start z <= length (buf z))%nat ->
  py_filter tick s x = Ok (Some (s1, u)) -> py_filter tick s1 y = Ok (Some (s2, v)) -> py_filter tick s z = Ok (Some (s2, u ++ v)).
Proof.
  intros S tick s x y z a b s1 u s2 v A1 A2 A3 A4 B1 B2 B3 B4 C1 C2 C3 C4. unfold py_filter.
  destruct (execute_ok (transform tick s) x a A1 A2 A3 A4) as [-> _]. destruct (execute_ok (transform tick s1) y b B1 B2 B3 B4) as [-> _].
  destruct (execute_ok (transform tick s) z (a ++ b) C1 C2 C3 C4) as [-> _]. rewrite transform_app.
  destruct (transform tick s a) as [[p1 l1]| |]; try discriminate. intros E. injection E as -> ->. cbn [bind fst snd].
  destruct (transform tick s1 b) as [[p2 l2]| |]; try discriminate. intros E. injection E as -> ->. reflexivity.
Qed.

(** Windows of a size that fits an [int] are the C++ windows; negative sizes raise. *)
Theorem C104_window_partial : forall f junk size w, (0 <= size < 2 ^ 31)%Z -> length junk = Z.to_nat size ->
  f (Z.to_nat size) = Ok w -> length w = Z.to_nat size -> py_window f junk size = Ok (Some w).
Proof.
  intros f junk size w Hs Hj E L. unfold py_window. destruct (Z.ltb_spec size 0); [lia|]. rewrite int_small by lia.
  destruct (Z.ltb_spec size 0); [lia|]. rewrite E. cbn [bind]. rewrite skipn_all2 by lia. rewrite app_nil_r. reflexivity.
Qed.
Theorem C104_negative : forall f junk size tick o, (size < 0)%Z -> py_window f junk size = Ok None /\ py_generate tick o size = Ok None.
Proof. intros. unfold py_window, py_generate. destruct (Z.ltb_spec size 0); [auto|lia]. Qed.
(** Beyond 2^31 elements the count wraps: the window is undefined, or elements stay unset. *)
Theorem C104_window_wrap_refuted : forall f junk size,
  ((2 ^ 31 <= size < 2 ^ 32)%Z -> py_window f junk size = UB) /\
  ((2 ^ 32 <= size < 2 ^ 32 + 2 ^ 31)%Z -> forall w, f (Z.to_nat (size - 2 ^ 32)) = Ok w -> py_window f junk size = Ok (Some (w ++ skipn (length w) junk))).
Proof.
  intros f junk size. unfold py_window, to_int32. split.
  - intros H. destruct (Z.ltb_spec size 0); [lia|]. replace ((size + 2 ^ 31) mod 2 ^ 32)%Z with (size + 2 ^ 31 - 2 ^ 32)%Z.
    + destruct (Z.ltb_spec (size + 2 ^ 31 - 2 ^ 32 - 2 ^ 31) 0); [reflexivity|lia].
    + apply (Z.mod_unique_pos _ _ 1); lia.
  - intros H w E. destruct (Z.ltb_spec size 0); [lia|]. replace ((size + 2 ^ 31) mod 2 ^ 32)%Z with (size + 2 ^ 31 - 2 ^ 32)%Z.
    + replace (size + 2 ^ 31 - 2 ^ 32 - 2 ^ 31)%Z with (size - 2 ^ 32)%Z by lia. destruct (Z.ltb_spec (size - 2 ^ 32) 0); [lia|]. rewrite E. reflexivity.
    + apply (Z.mod_unique_pos _ _ 1); lia.
Qed.
Example C104_ex : py_window rectangular [7; 7; 7] 3 = Ok (Some [1; 1; 1]) /\ py_filter (fun s x => Ok (s + x, s + x)) 0 (fresh_array 0 [1; 2]) = Ok (Some (0 + 1 + 2, [0 + 1; 0 + 1 + 2])).
Proof. split; [apply (C104_window_partial rectangular); cbn; auto; lia|reflexivity]. Qed.
Example C104_ex2 : forall o, py_generate (fun o => Ok (o, 1)) o 2 = Ok (Some (o, [1; 1])) /\ py_generate (fun o => Ok (o, 1)) o 3 = Ok (Some (o, [1; 1; 1])).
Proof. intros o. split; reflexivity. Qed.
Print Assumptions C97_contiguous_partial.
Print Assumptions C97_features_partial.
Print Assumptions C97_elementwise_partial.
Print Assumptions C97_normalize_partial.
Print Assumptions C97_rank.
Print Assumptions C97_strided_actual.
Print Assumptions C97_strided_refuted.
Print Assumptions C97_dtype_refuted.
Print Assumptions C98_moment_partial.
Print Assumptions C98_moment_refuted.
Print Assumptions C98_peak.
Print Assumptions C98_peak_abs_actual.
Print Assumptions C98_peak_abs_refuted.
Print Assumptions C98_python_peaks_partial.
Print Assumptions C99_search_partial.
Print Assumptions C99_strided_actual.
Print Assumptions C99_strided_refuted.
Print Assumptions C99_other_arrays.
Print Assumptions C100_equal_lengths_partial.
Print Assumptions C100_short_second_refuted.
Print Assumptions C100_long_second_refuted.
Print Assumptions C100_rank_actual.
Print Assumptions C100_flux_refuted.
Print Assumptions C100_flux_actual.
Print Assumptions C100_equal_partial.
Print Assumptions C101_real2complex_actual.
Print Assumptions C101_real2complex_refuted.
Print Assumptions C101_parts_partial.
Print Assumptions C102_complex_partial.
Print Assumptions C102_rfft_partial.
Print Assumptions C102_spectrum_partial.
Print Assumptions C102_even_partial.
Print Assumptions C102_odd_refuted.
Print Assumptions C103_concatenate_partial.
Print Assumptions C103_pad_partial.
Print Assumptions C103_pad_short_refuted.
Print Assumptions C104_generate.
Print Assumptions C104_filter_partial.
Print Assumptions C104_window_partial.
Print Assumptions C104_negative.
Print Assumptions C104_window_wrap_refuted.
