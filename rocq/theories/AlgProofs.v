From Coq Require Import Psatz Lia List Sorting.Sorted.
From Verif Require Import RealBase RealBaseProofs BaseProofs AlgModel AlgSpec.
Import ListNotations.
Local Open Scope R_scope.

Lemma nth_slice {A} (mem : list A) a n i : nth_error (slice mem a n) i = if (i <? n)%nat then nth_error mem (a + i) else None.
Proof.
  unfold slice. destruct (Nat.ltb_spec i n).
  - revert n i H. induction a as [|a IH] in mem |- *; intros n i H; simpl.
    + revert n i H. induction mem as [|x m IHm]; intros n i H; destruct n, i; simpl; auto; try lia. apply IHm. lia.
    + destruct mem; simpl; [rewrite firstn_nil; destruct i; reflexivity|apply IH; auto].
  - apply nth_error_None. rewrite firstn_length. lia.
Qed.
Lemma slice_length {A} (mem : list A) a n : in_range mem a n -> length (slice mem a n) = n.
Proof. unfold in_range, slice. intros H. rewrite firstn_length, skipn_length. lia. Qed.
Lemma slice_all {A} (l : list A) : slice l 0 (length l) = l.
Proof. unfold slice. simpl. apply firstn_all. Qed.

Lemma nth_written {A} (mem : list A) d out i : in_range mem d (length out) ->
  nth_error (written mem d out) i = if ((d <=? i) && (i <? d + length out))%nat then nth_error out (i - d) else nth_error mem i.
Proof.
  unfold in_range, written. intros H.
  destruct (Nat.leb_spec d i); cbn [andb].
  - rewrite nth_error_app2 by (rewrite firstn_length; lia). rewrite firstn_length, Nat.min_l by lia.
    destruct (Nat.ltb_spec i (d + length out)).
    + rewrite nth_error_app1 by lia. reflexivity.
    + rewrite nth_error_app2 by lia.
      replace (nth_error (skipn (d + length out) mem) (i - d - length out)) with (nth_error (slice mem (d + length out) (length mem - (d + length out))) (i - d - length out)).
      2:{ unfold slice. rewrite firstn_all2; auto. rewrite skipn_length. lia. }
      rewrite nth_slice. destruct (Nat.ltb_spec (i - d - length out) (length mem - (d + length out))).
      * f_equal. lia.
      * symmetry. apply nth_error_None. lia.
  - rewrite nth_error_app1 by (rewrite firstn_length; lia).
    replace (firstn d mem) with (slice mem 0 d) by reflexivity. rewrite nth_slice. simpl.
    destruct (Nat.ltb_spec i d); [reflexivity|lia].
Qed.
Lemma written_length {A} (mem : list A) d out : in_range mem d (length out) -> length (written mem d out) = length mem.
Proof. unfold in_range, written. intros. rewrite !app_length, firstn_length, skipn_length. lia. Qed.

Lemma store_written {A} (mem : list A) d v : in_range mem d 1 -> store mem d v = Ok (written mem d [v]).
Proof.
  unfold in_range, written. intros H. revert d H. induction mem as [|x m IH]; intros d H; simpl in *; [lia|].
  destruct d; simpl; auto. rewrite IH by lia. reflexivity.
Qed.
Lemma load_nth {A} (l : list A) i a : nth_error l i = Some a -> load l i = Ok a.
Proof. unfold load. intros ->. reflexivity. Qed.
Lemma nth_some {A} (l : list A) i : (i < length l)%nat -> exists a, nth_error l i = Some a.
Proof. intros H. destruct (nth_error l i) eqn:E; [eauto|]. apply nth_error_None in E. lia. Qed.

Lemma written_written {A} (mem : list A) d v out : in_range mem d (S (length out)) ->
  written (written mem d [v]) (S d) out = written mem d (v :: out).
Proof.
  intros H. unfold in_range in H. apply nth_error_ext_eq. intros i.
  rewrite nth_written by (unfold in_range; rewrite written_length by (unfold in_range; simpl; lia); lia).
  rewrite !nth_written by (unfold in_range; simpl; lia). cbn [length].
  destruct (Nat.leb_spec (S d) i), (Nat.ltb_spec i (S d + length out)), (Nat.leb_spec d i), (Nat.ltb_spec i (d + 1)), (Nat.ltb_spec i (d + S (length out)));
    cbn [andb]; try lia; auto.
  - replace (i - d)%nat with (S (i - S d)) by lia. reflexivity.
  - replace (i - d)%nat with O by lia. reflexivity.
Qed.

Lemma slice_cons {A} (mem : list A) a n x : nth_error mem a = Some x -> slice mem a (S n) = x :: slice mem (S a) n.
Proof.
  intros E. apply nth_error_ext_eq. intros i. destruct i as [|i]; rewrite nth_slice; simpl.
  - rewrite Nat.add_0_r. exact E.
  - rewrite nth_slice. replace (a + S i)%nat with (S (a + i)) by lia. destruct (Nat.ltb_spec (S i) (S n)), (Nat.ltb_spec i n); auto; lia.
Qed.
Lemma slice_written_after {A} (mem : list A) d v first n : in_range mem d 1 -> (d < first \/ first + n <= d)%nat ->
  slice (written mem d [v]) first n = slice mem first n.
Proof.
  intros H HD. apply nth_error_ext_eq. intros i. rewrite !nth_slice. destruct (Nat.ltb_spec i n); auto.
  rewrite nth_written by auto. cbn [length]. destruct (Nat.leb_spec d (first + i)), (Nat.ltb_spec (first + i) (d + 1)); cbn [andb]; auto; lia.
Qed.

Lemma mapM_length {A B} (f : A -> res B) l l' : mapM f l = Ok l' -> length l' = length l.
Proof.
  revert l'. induction l as [|x l IH]; intros l' E; simpl in E; [injection E as <-; reflexivity|].
  destruct (f x); simpl in E; try discriminate. destruct (mapM f l) eqn:M; simpl in E; try discriminate. injection E as <-. simpl. f_equal. auto.
Qed.

(** The transform writes [f] of every source element, in order. *)
Lemma mtransform_res (f : R -> res R) n : forall mem first d, in_range mem first n -> in_range mem d n -> no_clobber first d n ->
  mtransform f mem first d n = bind (mapM f (slice mem first n)) (fun out => Ok (written mem d out)).
Proof.
  unfold in_range, no_clobber. induction n as [|n IH]; intros mem first d H1 H2 H3.
  - simpl. unfold written. simpl. rewrite Nat.add_0_r, firstn_skipn. reflexivity.
  - destruct (nth_some mem first ltac:(lia)) as [x E]. cbn [mtransform]. rewrite (load_nth _ _ _ E). cbn [bind].
    rewrite (slice_cons _ _ _ _ E). cbn [mapM]. destruct (f x) as [y| |]; cbn [bind]; auto.
    rewrite store_written by (unfold in_range; lia). cbn [bind].
    rewrite IH; try (rewrite written_length by (unfold in_range; simpl; lia)); try lia.
    rewrite slice_written_after by (unfold in_range; lia).
    destruct (mapM f (slice mem (S first) n)) as [l'| |] eqn:M; cbn [bind rmap]; auto. f_equal. apply written_written.
    unfold in_range. apply mapM_length in M. rewrite M, slice_length by (unfold in_range; lia). lia.
Qed.
Lemma mtransform_ok (g : R -> R) n mem first d : in_range mem first n -> in_range mem d n -> no_clobber first d n ->
  mtransform (fun v => Ok (g v)) mem first d n = Ok (written mem d (map g (slice mem first n))).
Proof. intros. rewrite mtransform_res by auto. rewrite mapM_Ok. reflexivity. Qed.

(** A destination (or source) that is too short is an out-of-range access. *)
Lemma mtransform_ub (g : R -> R) n : forall mem first d, (0 < n)%nat -> ~ in_range mem d n -> mtransform (fun v => Ok (g v)) mem first d n = UB.
Proof.
  unfold in_range. induction n as [|n IH]; intros mem first d Hn H; [lia|]. cbn [mtransform].
  unfold load. destruct (nth_error mem first) as [x|]; cbn [bind]; auto.
  destruct (Nat.lt_ge_cases d (length mem)) as [Hd|Hd].
  - rewrite store_written by (unfold in_range; lia). cbn [bind]. apply IH; [lia|]. rewrite written_length by (unfold in_range; simpl; lia). lia.
  - rewrite store_ub by lia. reflexivity.
Qed.

Lemma mcopy_transform n : forall mem first d, mcopy mem first d n = mtransform (fun v => Ok v) mem first d n.
Proof. induction n as [|n IH]; intros; simpl; auto. destruct (load mem first); cbn [bind]; auto. destruct (store mem d a); cbn [bind]; auto. Qed.
Lemma mcopy_ok n mem first d : in_range mem first n -> in_range mem d n -> no_clobber first d n ->
  mcopy mem first d n = Ok (written mem d (slice mem first n)).
Proof. intros. rewrite mcopy_transform, (mtransform_ok (fun v => v)) by auto. rewrite map_id. reflexivity. Qed.
Lemma mfill_ok n v : forall mem d, in_range mem d n -> mfill mem d n v = Ok (written mem d (repeat v n)).
Proof.
  unfold in_range. induction n as [|n IH]; intros mem d H; cbn [mfill repeat].
  - unfold written. simpl. rewrite Nat.add_0_r, firstn_skipn. reflexivity.
  - rewrite store_written by (unfold in_range; lia). cbn [bind].
    rewrite IH by (rewrite written_length by (unfold in_range; simpl; lia); lia). f_equal. apply written_written. unfold in_range. rewrite repeat_length. lia.
Qed.

Lemma written_app {A} (mem : list A) d a b : in_range mem d (length a + length b) ->
  written (written mem d a) (d + length a) b = written mem d (a ++ b).
Proof.
  unfold in_range. intros H. apply nth_error_ext_eq. intros i.
  rewrite nth_written by (unfold in_range; rewrite written_length by (unfold in_range; lia); lia).
  rewrite !nth_written by (unfold in_range; try rewrite app_length; lia). rewrite app_length.
  destruct (Nat.leb_spec (d + length a) i), (Nat.ltb_spec i (d + length a + length b)), (Nat.leb_spec d i), (Nat.ltb_spec i (d + length a)), (Nat.ltb_spec i (d + (length a + length b)));
    cbn [andb]; try lia; auto.
  - rewrite nth_error_app2 by lia. f_equal. lia.
  - rewrite nth_error_app1 by lia. reflexivity.
Qed.
Lemma slice_written_far {A} (mem : list A) d out first n : in_range mem d (length out) -> (d + length out <= first \/ first + n <= d)%nat ->
  slice (written mem d out) first n = slice mem first n.
Proof.
  intros H HD. apply nth_error_ext_eq. intros i. rewrite !nth_slice. destruct (Nat.ltb_spec i n); auto.
  rewrite nth_written by auto. destruct (Nat.leb_spec d (first + i)), (Nat.ltb_spec (first + i) (d + length out)); cbn [andb]; auto; lia.
Qed.

Lemma concatenate_ok mem f1 n1 f2 n2 d : in_range mem f1 n1 -> in_range mem f2 n2 -> in_range mem d (n1 + n2) ->
  no_clobber f1 d n1 -> (f2 + n2 <= d \/ d + n1 + n2 <= f2)%nat ->
  concatenate mem f1 n1 f2 n2 d = Ok (written mem d (slice mem f1 n1 ++ slice mem f2 n2)).
Proof.
  intros H1 H2 H3 C1 C2. unfold concatenate. rewrite mcopy_ok by (auto; unfold in_range in *; lia). cbn [bind].
  assert (L1 : length (slice mem f1 n1) = n1) by (apply slice_length; auto).
  assert (LW : length (written mem d (slice mem f1 n1)) = length mem) by (apply written_length; rewrite L1; unfold in_range in *; lia).
  rewrite mcopy_ok; unfold in_range, no_clobber in *; rewrite ?LW; try lia.
  rewrite slice_written_far by (unfold in_range; rewrite L1; lia).
  f_equal. rewrite <- L1 at 2. apply written_app. unfold in_range. rewrite L1, slice_length by (unfold in_range; lia). lia.
Qed.

Lemma padder_ok mem first n d dn : in_range mem first n -> in_range mem d dn -> (n <= dn)%nat -> no_clobber first d n ->
  padder mem first n d dn = Ok (written mem d (slice mem first n ++ repeat 0 (dn - n))).
Proof.
  intros H1 H2 H3 H4. unfold padder. destruct (Nat.ltb_spec dn n); [lia|].
  assert (L1 : length (slice mem first n) = n) by (apply slice_length; auto).
  rewrite mcopy_ok by (auto; unfold in_range in *; lia). cbn [bind].
  assert (LW : length (written mem d (slice mem first n)) = length mem) by (apply written_length; rewrite L1; unfold in_range in *; lia).
  rewrite mfill_ok by (unfold in_range in *; lia). f_equal. rewrite <- L1 at 2. apply written_app. unfold in_range in *. rewrite L1, repeat_length. lia.
Qed.

Fixpoint diffs (prev : R) (l : list R) : list R := match l with [] => [] | x :: t => (x - prev) :: diffs x t end.
Lemma diffs_length l : forall p, length (diffs p l) = length l. Proof. induction l; simpl; auto. Qed.
Lemma adj_ok n : forall mem prev first d, in_range mem first n -> in_range mem d n -> no_clobber first d n ->
  adj_loop mem prev first d n = Ok (written mem d (diffs prev (slice mem first n))).
Proof.
  unfold in_range, no_clobber. induction n as [|n IH]; intros mem prev first d H1 H2 H3; cbn [adj_loop].
  - simpl. unfold written. simpl. rewrite Nat.add_0_r, firstn_skipn. reflexivity.
  - destruct (nth_some mem first ltac:(lia)) as [x E]. rewrite (load_nth _ _ _ E). cbn [bind].
    rewrite (slice_cons _ _ _ _ E). cbn [diffs].
    rewrite store_written by (unfold in_range; lia). cbn [bind].
    rewrite IH; try (rewrite written_length by (unfold in_range; simpl; lia)); try lia.
    rewrite slice_written_after by (unfold in_range; lia). f_equal. apply written_written.
    unfold in_range. rewrite diffs_length, slice_length by (unfold in_range; lia). lia.
Qed.
Lemma derivative_ok n mem first d : in_range mem first n -> in_range mem d n -> no_clobber first d n ->
  derivative mem first n d = Ok (written mem d (diffs 0 (slice mem first n))).
Proof.
  unfold in_range, no_clobber. intros H1 H2 H3. destruct n as [|n]; cbn [derivative].
  - simpl. unfold written. simpl. rewrite Nat.add_0_r, firstn_skipn. reflexivity.
  - destruct (nth_some mem first ltac:(lia)) as [x E]. rewrite (load_nth _ _ _ E). cbn [bind].
    rewrite (slice_cons _ _ _ _ E). cbn [diffs]. rewrite Rminus_0_r.
    rewrite store_written by (unfold in_range; lia). cbn [bind].
    rewrite adj_ok; unfold in_range, no_clobber; try (rewrite written_length by (unfold in_range; simpl; lia)); try lia.
    rewrite slice_written_after by (unfold in_range; lia). f_equal. apply written_written.
    unfold in_range. rewrite diffs_length, slice_length by (unfold in_range; lia). lia.
Qed.
Lemma diffs_nth l : forall p i x, nth_error l i = Some x ->
  nth_error (diffs p l) i = Some (x - match i with O => p | S j => nth j l 0 end).
Proof.
  induction l as [|y l IH]; intros p i x E; destruct i; simpl in *; try discriminate.
  - injection E as ->. reflexivity.
  - rewrite (IH y i x E). destruct i; reflexivity.
Qed.
Lemma diffs_sum l : forall p k, (k <= length l)%nat -> rsum (firstn k (diffs p l)) = match k with O => 0 | S j => nth j l 0 - p end.
Proof.
  induction l as [|x l IH]; intros p k Hk; destruct k; cbn [length] in Hk; auto; [lia|].
  cbn [diffs firstn rsum]. rewrite IH by lia. destruct k; simpl; ring.
Qed.

(** linspace / logspace *)
Lemma space_ok g inc m : forall mem d x, in_range mem d (S m) ->
  space_loop g mem d x (Ok inc) (S m) = Ok (written mem d (map (fun i => g (x + INR i * inc)) (seq 0 (S m)))).
Proof.
  unfold in_range. induction m as [|m IH]; intros mem d x H.
  - cbn [space_loop]. rewrite store_written by (unfold in_range; lia). cbn [bind seq map]. simpl (INR 0). rewrite Rmult_0_l, Rplus_0_r. reflexivity.
  - change (space_loop g mem d x (Ok inc) (S (S m))) with
      (bind (store mem d (g x)) (fun mem' => space_loop g mem' (S d) (x + inc) (Ok inc) (S m))).
    rewrite store_written by (unfold in_range; lia). cbn [bind].
    rewrite IH by (rewrite written_length by (unfold in_range; simpl; lia); lia). f_equal.
    rewrite written_written by (unfold in_range; rewrite map_length, seq_length; lia). f_equal.
    change (seq 0 (S (S m))) with (0%nat :: seq 1 (S m)). cbn [map]. simpl (INR 0). rewrite Rmult_0_l, Rplus_0_r. f_equal.
    rewrite <- seq_shift, map_map. apply map_ext. intros i. f_equal. rewrite S_INR. ring.
Qed.
Lemma space_one g mem d x inc : in_range mem d 1 -> space_loop g mem d x inc 1 = Ok (written mem d [g x]).
Proof. intros H. cbn [space_loop]. rewrite store_written by auto. reflexivity. Qed.

(** ** Scalar functions *)
Lemma cfloor_spec x : is_integer (cfloor x) /\ cfloor x <= x < cfloor x + 1.
Proof. split; [exists (Int_part x); reflexivity|]. unfold cfloor. destruct (base_Int_part x). lra. Qed.
Lemma cceil_spec x : is_integer (cceil x) /\ cceil x - 1 < x <= cceil x.
Proof.
  destruct (cfloor_spec (- x)) as [[k E] B]. unfold cceil. split; [exists (- k)%Z; rewrite E, opp_IZR; reflexivity|lra].
Qed.
Lemma ctrunc_spec x : is_integer (ctrunc x) /\ Rabs (ctrunc x) <= Rabs x < Rabs (ctrunc x) + 1 /\ 0 <= ctrunc x * x.
Proof.
  unfold ctrunc. destruct (Rlt_dec x 0).
  - destruct (cceil_spec x) as [I B]. split; auto. destruct I as [k E]. assert (cceil x <= 0).
    { rewrite E in *. apply IZR_le. assert (IZR k < 1) by lra. apply lt_IZR in H. lia. }
    rewrite !Rabs_left1 by lra. split; [lra|nra].
  - destruct (cfloor_spec x) as [I B]. split; auto. destruct I as [k E]. assert (0 <= cfloor x).
    { rewrite E in *. apply IZR_le. assert (-1 < IZR k) by lra. apply lt_IZR in H. lia. }
    rewrite !Rabs_pos_eq by lra. split; [lra|nra].
Qed.
Lemma cround_spec x : is_integer (cround x) /\ Rabs (cround x - x) <= / 2 /\ (Rabs (cround x - x) = / 2 -> Rabs x < Rabs (cround x)).
Proof.
  unfold cround. destruct (Rlt_dec x 0).
  - destruct (cfloor_spec (- x + / 2)) as [[k E] B]. split; [exists (- k)%Z; rewrite E, opp_IZR; reflexivity|].
    split; [apply Rabs_le; lra|]. intros H. assert (HF : 0 <= cfloor (- x + / 2)).
    { rewrite E in *. apply IZR_le. assert (-1 < IZR k) by lra. apply lt_IZR in H0. lia. }
    rewrite Rabs_Ropp, (Rabs_pos_eq (cfloor _)), (Rabs_left x) by lra. unfold Rabs in H. destruct (Rcase_abs _); lra.
  - destruct (cfloor_spec (x + / 2)) as [[k E] B]. split; [exists k; auto|].
    split; [apply Rabs_le; lra|]. intros H. assert (HF : 0 <= cfloor (x + / 2)).
    { rewrite E in *. apply IZR_le. assert (-1 < IZR k) by lra. apply lt_IZR in H0. lia. }
    rewrite (Rabs_pos_eq (cfloor _)), (Rabs_pos_eq x) by lra. unfold Rabs in H. destruct (Rcase_abs _); lra.
Qed.

Lemma clip_spec mn mx v : mn <= mx ->
  within mn mx (clip_fn mn mx v) /\ (within mn mx v -> clip_fn mn mx v = v) /\ (v <= mn -> clip_fn mn mx v = mn) /\ (mx <= v -> clip_fn mn mx v = mx).
Proof. intros H. unfold clip_fn, within. repeat split; destruct (Rlt_dec v mn), (Rlt_dec mx v); intros; lra. Qed.
Lemma clip_monotone mn mx u v : mn <= mx -> u <= v -> clip_fn mn mx u <= clip_fn mn mx v.
Proof. intros H1 H2. unfold clip_fn. destruct (Rlt_dec u mn), (Rlt_dec mx u), (Rlt_dec v mn), (Rlt_dec mx v); lra. Qed.
Lemma clip_idem mn mx v : mn <= mx -> clip_fn mn mx (clip_fn mn mx v) = clip_fn mn mx v.
Proof. intros H. apply clip_spec; auto. apply clip_spec; auto. Qed.

(** ** Searches *)
Section Search.
Context {A : Type} (eqb : A -> A -> bool) (Heq : forall x y, eqb x y = true <-> x = y).

Lemma std_find_spec l v : (std_find eqb l v <= length l)%nat /\
  ((std_find eqb l v < length l)%nat -> first_at l v (std_find eqb l v)) /\
  (std_find eqb l v = length l <-> ~ In v l).
Proof.
  induction l as [|x l [IH1 [IH2 IH3]]]; cbn [std_find length].
  - split; [lia|]. split; [intros; lia|]. split; [intros _ []|auto].
  - destruct (eqb x v) eqn:E.
    + apply Heq in E. subst x. split; [lia|]. split.
      * intros _. split; [reflexivity|intros; lia].
      * split; [intros H; lia|intros H; exfalso; apply H; left; auto].
    + assert (N : x <> v) by (intros X; apply Heq in X; congruence).
      split; [lia|]. split.
      * intros H. destruct IH2 as [F1 F2]; [lia|]. split; [exact F1|]. intros [|j] Hj; simpl; [congruence|]. apply F2. lia.
      * split.
        -- intros H [X|X]; [contradiction|]. apply IH3; [lia|auto].
        -- intros H. f_equal. apply IH3. intros X. apply H. right; auto.
Qed.

Lemma first_at_unique (l : list A) v i j : first_at l v i -> first_at l v j -> i = j.
Proof. intros [A1 A2] [B1 B2]. destruct (Nat.lt_trichotomy i j) as [H|[H|H]]; auto; exfalso; [apply (B2 i H A1)|apply (A2 j H B1)]. Qed.

Context (ltb : A -> A -> bool) (le : A -> A -> Prop)
  (Hlt : forall x y, ltb x y = false <-> le y x) (Htr : forall x y z, le x y -> le y z -> le x z)
  (Hrefl : forall x, le x x) (Hanti : forall x y, le x y -> le y x -> x = y).

Definition sorted (l : list A) : Prop := forall i j x y, (i < j)%nat -> nth_error l i = Some x -> nth_error l j = Some y -> le x y.

Lemma lower_bound_ok l v : sorted l -> forall fuel len first, (len <= fuel)%nat -> (first + len <= length l)%nat ->
  (forall i x, (i < first)%nat -> nth_error l i = Some x -> ltb x v = true) ->
  (forall i x, (first + len <= i)%nat -> nth_error l i = Some x -> ltb x v = false) ->
  exists k, lower_bound_loop ltb l v first len fuel = Ok k /\ (k <= length l)%nat /\
    (forall i x, (i < k)%nat -> nth_error l i = Some x -> ltb x v = true) /\
    (forall i x, (k <= i)%nat -> nth_error l i = Some x -> ltb x v = false).
Proof.
  intros HS. induction fuel as [|fuel IH]; intros len first HF HL HB HA.
  - destruct len; [|lia]. exists first. split; [reflexivity|]. rewrite Nat.add_0_r in *. split; [lia|]. auto.
  - destruct len as [|len0]; [exists first; split; [reflexivity|]; rewrite Nat.add_0_r in *; split; [lia|]; auto|].
    cbn [lower_bound_loop]. remember (S len0) as len eqn:El.
    assert (Hh : (len / 2 < len)%nat) by (apply Nat.div_lt; lia).
    destruct (nth_some l (first + len / 2) ltac:(lia)) as [x E]. rewrite (load_nth _ _ _ E). cbn [bind].
    destruct (ltb x v) eqn:Lx.
    + apply IH; try lia.
      * intros i y Hi Ey. destruct (Nat.eq_dec i (first + len / 2)) as [->|Ne]; [congruence|].
        destruct (ltb y v) eqn:Ly; auto. exfalso. apply Hlt in Ly.
        assert (le y x) by (eapply (HS i (first + len / 2)%nat); eauto; lia).
        assert (le v x) by eauto. apply Hlt in H0. congruence.
      * intros i y Hi Ey. apply (HA i y); auto. lia.
    + apply IH; try lia; auto.
      intros i y Hi Ey. destruct (Nat.eq_dec i (first + len / 2)) as [->|Ne]; [congruence|].
      apply Hlt. apply Hlt in Lx. apply (Htr v x y); auto. eapply (HS (first + len / 2)%nat i); eauto. lia.
Qed.

Lemma binary_search_ok l v : sorted l ->
  exists k, binary_search ltb eqb l v = Ok k /\ (first_at l v k \/ (k = length l /\ ~ In v l)).
Proof.
  intros HS. unfold binary_search, lower_bound.
  destruct (lower_bound_ok l v HS (length l) (length l) 0) as [k [E [K1 [K2 K3]]]]; try lia.
  { intros i x Hi Ex. assert (nth_error l i <> None) by congruence. apply nth_error_Some in H. lia. }
  rewrite E. cbn [bind].
  assert (NB : forall i, (i < k)%nat -> nth_error l i <> Some v).
  { intros i Hi Ex. pose proof (K2 i v Hi Ex) as L. assert (ltb v v = false) by (apply Hlt, Hrefl). congruence. }
  destruct (Nat.eqb_spec k (length l)) as [->|Nk].
  - exists (length l). split; auto. right. split; auto. intros HI. apply In_nth_error in HI. destruct HI as [i Hi].
    assert (nth_error l i <> None) by congruence. apply nth_error_Some in H. apply (NB i H Hi).
  - destruct (nth_some l k ltac:(lia)) as [x Ex]. rewrite (load_nth _ _ _ Ex). cbn [bind].
    destruct (eqb v x) eqn:Ev.
    + apply Heq in Ev. subst x. exists k. split; auto. left. split; auto.
    + exists (length l). split; auto. right. split; auto. intros HI. apply In_nth_error in HI. destruct HI as [i Hi].
      assert (Ki : (k <= i)%nat) by (destruct (Nat.le_gt_cases k i); auto; exfalso; apply (NB i); auto).
      assert (Ne : i <> k) by (intros ->; rewrite Hi in Ex; injection Ex as ->; assert (eqb x x = true) by (apply Heq; auto); congruence).
      assert (Lx : ltb x v = false) by (apply (K3 k x); auto). apply Hlt in Lx.
      assert (le x v) by (apply (HS k i x v); auto; lia).
      assert (x = v) by auto. subst x. assert (eqb v v = true) by (apply Heq; auto). congruence.
Qed.
End Search.

Lemma equal_fn_spec {A} (p : A -> A -> bool) a : forall b, equal_fn p a b = true <-> (length a = length b /\ forall i x y, nth_error a i = Some x -> nth_error b i = Some y -> p x y = true).
Proof.
  induction a as [|x a IH]; intros [|y b]; cbn [equal_fn length].
  - split; auto. intros _. split; auto. intros [|i]; discriminate.
  - split; [discriminate|intros [H _]; discriminate].
  - split; [discriminate|intros [H _]; discriminate].
  - destruct (p x y) eqn:E.
    + rewrite IH. split; intros [H1 H2].
      * split; [lia|]. intros [|i] u v; simpl; [intros U V; injection U as <-; injection V as <-; auto|apply H2].
      * split; [lia|]. intros i u v U V. apply (H2 (S i)); auto.
    + split; [discriminate|]. intros [_ H]. specialize (H 0%nat x y eq_refl eq_refl). congruence.
Qed.
