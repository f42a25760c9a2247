(** Theorems C57, C58, C77, C78, C79: audio file input and output. *)
From Verif Require Import Base BaseProofs AlgModel AlgSpec AlgProofs IOModel.
From Coq Require Import QArith.QArith Qround.
Local Open Scope nat_scope.
Local Open Scope res_scope.

(** * C57: reading *)
Lemma put_ok {A} (vals : list A) : forall mem d, in_range mem d (length vals) -> put mem d vals = Ok (written mem d vals).
Proof.
  induction vals as [|v t IH]; intros mem d H; cbn [put].
  - unfold written. cbn [length app]. rewrite Nat.add_0_r, firstn_skipn. reflexivity.
  - unfold in_range in H. cbn [length] in H. rewrite store_written by (unfold in_range; lia). cbn [bind]. rewrite IH by (unfold in_range; rewrite written_length; unfold in_range; cbn; lia).
    f_equal. pose proof (written_app mem d [v] t) as W. cbn [length app] in W. rewrite Nat.add_1_r in W. apply W. unfold in_range. cbn. lia.
Qed.
Lemma written_nil {A} (mem : list A) d : written mem d [] = mem.
Proof. unfold written. cbn [length app]. rewrite Nat.add_0_r, firstn_skipn. reflexivity. Qed.
(** Samples left in a file. *)
Definition left_of {A} (f : snd_file A) : nat := length (f_data f) - f_pos f * f_channels f.
(** Whole frames only, and the position inside the file: what every open file satisfies. *)
Definition good_file {A} (f : snd_file A) : Prop :=
  0 < f_channels f /\ Nat.divide (f_channels f) (length (f_data f)) /\ f_pos f * f_channels f <= length (f_data f).
Lemma left_divide {A} (f : snd_file A) : good_file f -> Nat.divide (f_channels f) (left_of f).
Proof. intros [P [[k K] L]]. exists (k - f_pos f). unfold left_of. rewrite K. rewrite Nat.mul_sub_distr_r. reflexivity. Qed.
Lemma slice_length {A} (l : list A) a n : length (slice l a n) = Nat.min n (length l - a).
Proof. unfold slice. rewrite firstn_length, skipn_length. reflexivity. Qed.
Lemma slice_split {A} (l : list A) a n m : slice l a (n + m) = slice l a n ++ slice l (a + n) m.
Proof.
  unfold slice. revert a n. induction l as [|x l IH]; intros a n; [rewrite !skipn_nil, !firstn_nil; reflexivity|].
  destruct a as [|a].
  - cbn [skipn plus]. destruct n as [|n]; [reflexivity|]. cbn [plus firstn skipn app]. f_equal. apply (IH 0 n).
  - cbn [skipn plus]. apply IH.
Qed.
Lemma slice_min {A} (l : list A) a n : slice l a n = slice l a (Nat.min n (length l - a)).
Proof. unfold slice. symmetry. rewrite <- skipn_length. destruct (Nat.le_ge_cases n (length (skipn a l))) as [H|H]; [rewrite Nat.min_l; auto|]. rewrite Nat.min_r by auto. rewrite !firstn_all2; auto. Qed.
Definition at_frame {A} (f : snd_file A) (p : nat) : snd_file A := mkFile (f_data f) (f_channels f) p.

Lemma sf_read_ok {A} (f : snd_file A) items : good_file f -> Nat.divide (f_channels f) items ->
  exists k, sf_read f items = (slice (f_data f) (f_pos f * f_channels f) (k * f_channels f), at_frame f (f_pos f + k)) /\
    k * f_channels f = Nat.min items (left_of f) /\ good_file (at_frame f (f_pos f + k)) /\ left_of (at_frame f (f_pos f + k)) = left_of f - k * f_channels f.
Proof.
  intros G D. assert (Dk : Nat.divide (f_channels f) (Nat.min items (left_of f))) by (destruct (Nat.min_spec items (left_of f)) as [[_ ->]|[_ ->]]; [auto|apply left_divide; auto]).
  destruct Dk as [k K]. exists k. destruct G as [P [DL L]]. unfold sf_read. destruct (Nat.eqb_spec (items mod f_channels f) 0) as [E|E]; [|exfalso; apply E, Nat.mod_divide; [lia|auto]].
  fold (slice (f_data f) (f_pos f * f_channels f) items). rewrite slice_min. fold (left_of f). rewrite K. split; [|split; [auto|split]].
  - f_equal. unfold at_frame. f_equal. f_equal. rewrite slice_length. fold (left_of f). assert (k * f_channels f <= left_of f) by lia. rewrite Nat.min_l by auto. apply Nat.div_mul. lia.
  - unfold good_file, at_frame. cbn. split; auto. split; auto. unfold left_of in K. nia.
  - unfold left_of, at_frame. cbn. nia.
Qed.
Lemma snd_read_loop_ok {A} N fuel : 0 < N -> forall (f : snd_file A) mem first remaining, good_file f -> Nat.divide (f_channels f) N -> Nat.divide (f_channels f) remaining ->
  in_range mem first remaining -> remaining < fuel -> exists k,
  snd_read_loop fuel N f mem first remaining = Ok (at_frame f (f_pos f + k), written mem first (slice (f_data f) (f_pos f * f_channels f) (k * f_channels f)), remaining - k * f_channels f) /\
  k * f_channels f = Nat.min remaining (left_of f).
Proof.
  intros HN. induction fuel as [|fuel IH]; intros f mem first remaining G DN DR R L; [lia|]. cbn [snd_read_loop].
  set (counter := if N <? remaining then N else remaining). assert (C : Nat.divide (f_channels f) counter /\ counter <= remaining /\ (remaining = 0 \/ 0 < counter)) by (unfold counter; destruct (Nat.ltb_spec N remaining); repeat split; auto; lia).
  destruct C as [C1 [C2 C3]]. destruct (sf_read_ok f counter G C1) as [k [E [K [G' L']]]]. rewrite E.
  assert (Len : length (slice (f_data f) (f_pos f * f_channels f) (k * f_channels f)) = k * f_channels f) by (rewrite slice_length; fold (left_of f); lia).
  rewrite put_ok by (unfold in_range in *; rewrite Len; lia). cbn [bind]. rewrite Len.
  destruct (Nat.ltb_spec 0 (remaining - k * f_channels f)) as [H1|H1]; cbn [andb]; [destruct (Nat.ltb_spec 0 (k * f_channels f)) as [H2|H2]|].
  - destruct (IH (at_frame f (f_pos f + k)) (written mem first (slice (f_data f) (f_pos f * f_channels f) (k * f_channels f))) (first + k * f_channels f) (remaining - k * f_channels f)) as [k' [E' K']]; auto.
    + apply Nat.divide_sub_r; auto. exists k. reflexivity.
    + unfold in_range in *. rewrite written_length by (unfold in_range; rewrite Len; lia). lia.
    + lia.
    + exists (k + k'). rewrite E'. cbn [at_frame f_data f_channels f_pos] in *. split.
      * rewrite !Nat.mul_add_distr_r, slice_split, <- written_app, Len by (unfold in_range in *; rewrite Len, slice_length; fold (left_of f); rewrite L' in K'; lia).
        rewrite Nat.add_assoc, Nat.sub_add_distr. reflexivity.
      * rewrite L' in K'. rewrite Nat.mul_add_distr_r. lia.
  - exists k. split; auto. lia.
  - exists k. split; auto. lia.
Qed.
(** read stores the next samples of the stream in order and returns their number: the request, or what
    is left.  (Block size and request in whole frames.) *)
Theorem C57_snd_read {A} N (f : snd_file A) mem first total : 0 < N -> good_file f -> Nat.divide (f_channels f) N -> Nat.divide (f_channels f) total ->
  in_range mem first total ->
  let count := Nat.min total (left_of f) in
  exists f', snd_read N f mem first total = Ok (f', written mem first (slice (f_data f) (f_pos f * f_channels f) count), count) /\
    f_data f' = f_data f /\ f_channels f' = f_channels f /\ f_pos f' * f_channels f' = f_pos f * f_channels f + count /\ good_file f'.
Proof.
  intros HN G DN DT R count. unfold snd_read. destruct (snd_read_loop_ok N (S total) HN f mem first total G DN DT R ltac:(lia)) as [k [E K]]. rewrite E. cbn [bind]. fold count in K. rewrite K. exists (at_frame f (f_pos f + k)).
  split; [f_equal; f_equal; lia|]. cbn. split; auto. split; auto. split; [lia|]. destruct G as [P [D L]]. unfold good_file, at_frame. cbn. split; auto. split; auto. unfold count, left_of in K. lia.
Qed.
(** Two consecutive reads give the same samples as one read of both lengths. *)
Theorem C57_consecutive {A} N (f f1 f2 : snd_file A) m1 m2 a b c1 c2 : 0 < N -> good_file f -> Nat.divide (f_channels f) N -> Nat.divide (f_channels f) a -> Nat.divide (f_channels f) b ->
  in_range m1 0 a -> in_range m2 0 b -> forall o1 o2, snd_read N f m1 0 a = Ok (f1, o1, c1) -> snd_read N f1 m2 0 b = Ok (f2, o2, c2) ->
  slice o1 0 c1 ++ slice o2 0 c2 = slice (f_data f) (f_pos f * f_channels f) (c1 + c2) /\ c1 + c2 = Nat.min (a + b) (left_of f).
Proof.
  intros HN G DN Da Db R1 R2 o1 o2 E1 E2. destruct (C57_snd_read N f m1 0 a HN G DN Da R1) as [g1 [F1 [A1 [B1 [P1 G1]]]]]. rewrite E1 in F1. injection F1 as -> -> ->.
  rewrite <- B1 in DN, Db. destruct (C57_snd_read N g1 m2 0 b HN G1 DN Db R2) as [g2 [F2 [A2 [B2 [P2 G2]]]]]. rewrite E2 in F2. injection F2 as -> -> ->.
  assert (W : forall (m v : list A), in_range m 0 (length v) -> slice (written m 0 v) 0 (length v) = v).
  { intros m v H. unfold written, slice. cbn [firstn skipn app plus]. rewrite firstn_app, firstn_all, Nat.sub_diag. cbn. apply app_nil_r. }
  assert (L1 : length (slice (f_data f) (f_pos f * f_channels f) (Nat.min a (left_of f))) = Nat.min a (left_of f)) by (rewrite slice_length; fold (left_of f); lia).
  assert (LL : left_of g1 = left_of f - Nat.min a (left_of f)) by (unfold left_of at 1; rewrite A1, P1; unfold left_of at 1; unfold left_of; lia).
  assert (L2 : length (slice (f_data g1) (f_pos g1 * f_channels g1) (Nat.min b (left_of g1))) = Nat.min b (left_of g1)) by (rewrite slice_length; fold (left_of g1); lia).
  assert (S1 : slice (written m1 0 (slice (f_data f) (f_pos f * f_channels f) (Nat.min a (left_of f)))) 0 (Nat.min a (left_of f)) = slice (f_data f) (f_pos f * f_channels f) (Nat.min a (left_of f))).
  { rewrite <- L1 at 2. apply W. unfold in_range in *. rewrite L1. lia. }
  assert (S2 : slice (written m2 0 (slice (f_data g1) (f_pos g1 * f_channels g1) (Nat.min b (left_of g1)))) 0 (Nat.min b (left_of g1)) = slice (f_data g1) (f_pos g1 * f_channels g1) (Nat.min b (left_of g1))).
  { rewrite <- L2 at 2. apply W. unfold in_range in *. rewrite L2. lia. }
  rewrite S1, S2. rewrite A1, P1, slice_split. split; [reflexivity|]. rewrite LL. lia.
Qed.
(** VIOLATION: when the block size is not a whole number of frames (2048 with 3, 5, 6 or 7 channels),
    a request longer than a block reads nothing. *)
Theorem C57_block_refuted {A} N (f : snd_file A) mem first total : good_file f -> ~ Nat.divide (f_channels f) N -> N < total ->
  snd_read N f mem first total = Ok (f, mem, 0).
Proof.
  intros [P _] D L. unfold snd_read. cbn [snd_read_loop]. destruct (Nat.ltb_spec N total); [|lia]. unfold sf_read. destruct (Nat.eqb_spec (N mod f_channels f) 0) as [E|E]; [exfalso; apply D, Nat.mod_divide; [lia|auto]|].
  cbn [put bind length]. rewrite Bool.andb_false_r. cbn [bind]. rewrite Nat.sub_0_r, Nat.sub_diag. reflexivity.
Qed.
Example C57_block_ex : ~ Nat.divide 3 2048. Proof. intros [k K]. lia. Qed.
(** A request that is not a whole number of frames and fits in one block reads nothing. *)
Theorem C57_partial_frame_refuted {A} N (f : snd_file A) mem first total : good_file f -> ~ Nat.divide (f_channels f) total -> total <= N ->
  snd_read N f mem first total = Ok (f, mem, 0).
Proof.
  intros [P _] D L. unfold snd_read. cbn [snd_read_loop]. destruct (Nat.ltb_spec N total); [lia|]. unfold sf_read. destruct (Nat.eqb_spec (total mod f_channels f) 0) as [E|E]; [exfalso; apply D, Nat.mod_divide; [lia|auto]|].
  cbn [put bind length]. rewrite Bool.andb_false_r. cbn [bind]. rewrite Nat.sub_0_r, Nat.sub_diag. reflexivity.
Qed.
(** The audiofile decoder agrees on mono files. *)
Lemma af_sf_mono {A} (f : snd_file A) n : f_channels f = 1 -> af_read f n = sf_read f n.
Proof. intros C. unfold af_read, sf_read. rewrite C, Nat.mod_1_r, !Nat.mul_1_r. reflexivity. Qed.
Theorem C57_audiofile_mono {A} N (f : snd_file A) mem first total : f_channels f = 1 -> audio_read N f mem first total = snd_read N f mem first total.
Proof.
  intros C. unfold audio_read, snd_read. f_equal. generalize (S total) as fuel. intros fuel. revert f mem first total C. induction fuel as [|fuel IH]; intros f mem first total C; auto. cbn [af_read_loop snd_read_loop].
  set (counter := if N <? total then N else total). assert (L : counter <= N) by (unfold counter; destruct (Nat.ltb_spec N total); lia). rewrite af_sf_mono by auto. destruct (sf_read f counter) as [v f'] eqn:E.
  assert (V : length v <= counter /\ f_channels f' = 1). { unfold sf_read in E. rewrite C, Nat.mod_1_r in E. cbn [Nat.eqb] in E. injection E as <- <-. split; auto. rewrite firstn_length. lia. }
  destruct (Nat.ltb_spec N (length v)); [lia|]. rewrite C, Nat.div_1_r, firstn_all. destruct (put mem first v); auto. cbn [bind]. destruct ((0 <? total - length v) && (0 <? length v)); auto. apply IH. tauto.
Qed.
(** VIOLATION: on a file with several channels the audiofile decoder overflows its block buffer... *)
Theorem C57_audiofile_overflow_refuted {A} N (f : snd_file A) mem first total : 2 <= f_channels f -> N < Nat.min total N * f_channels f <= left_of f ->
  audio_read N f mem first total = UB.
Proof.
  intros C [H1 H2]. unfold audio_read. cbn [af_read_loop]. unfold af_read. set (counter := if N <? total then N else total). assert (E : counter = Nat.min total N) by (unfold counter; destruct (Nat.ltb_spec N total); lia).
  fold (slice (f_data f) (f_pos f * f_channels f) (counter * f_channels f)). rewrite slice_length. fold (left_of f). rewrite E, Nat.min_l by auto. destruct (Nat.ltb_spec N (Nat.min total N * f_channels f)); [reflexivity|lia].
Qed.
(** ... or, for short requests, skips all but one [channels]-th of the samples it reports as read. *)
Theorem C57_audiofile_skips_refuted {A} N (f : snd_file A) mem first total : 2 <= f_channels f -> 0 < total -> total * f_channels f <= N -> total * f_channels f <= left_of f -> in_range mem first total ->
  audio_read N f mem first total = Ok (at_frame f (f_pos f + total), written mem first (slice (f_data f) (f_pos f * f_channels f) total), total).
Proof.
  intros C T H1 H2 R. unfold audio_read. cbn [af_read_loop]. destruct (Nat.ltb_spec N total); [nia|]. unfold af_read. fold (slice (f_data f) (f_pos f * f_channels f) (total * f_channels f)). rewrite slice_length. fold (left_of f). rewrite Nat.min_l by auto.
  destruct (Nat.ltb_spec N (total * f_channels f)); [lia|]. rewrite Nat.div_mul by lia.
  assert (F : firstn total (slice (f_data f) (f_pos f * f_channels f) (total * f_channels f)) = slice (f_data f) (f_pos f * f_channels f) total) by (unfold slice; rewrite firstn_firstn; f_equal; nia).
  rewrite F. rewrite put_ok by (unfold in_range in *; rewrite slice_length; fold (left_of f); nia). cbn [bind]. rewrite Nat.sub_diag. cbn [Nat.ltb Nat.leb andb]. cbn [bind]. rewrite Nat.sub_0_r. reflexivity.
Qed.
Example C57_ex : good_file (mkFile [1; 2; 3; 4; 5; 6] 2 1) /\ snd_read 2 (mkFile [1; 2; 3; 4; 5; 6] 2 1) [0; 0; 0; 0; 0; 0; 0; 0] 1 6 = Ok (mkFile [1; 2; 3; 4; 5; 6] 2 3, [0; 3; 4; 5; 6; 0; 0; 0], 4).
Proof. split; [|reflexivity]. unfold good_file. cbn. repeat split; try lia. exists 3. reflexivity. Qed.

(** * C77: seeking *)
Theorem C77_seek {A} N (f f1 : snd_file A) mem first p q total : 0 < N -> good_file f -> Nat.divide (f_channels f) N -> Nat.divide (f_channels f) total -> in_range mem first total ->
  snd_seek f p = (q, f1) ->
  (0 <= p <= Z.of_nat (length (f_data f) / f_channels f))%Z /\ q = p /\ snd_current f1 = p /\
    (exists f2, snd_read N f1 mem first total = Ok (f2, written mem first (slice (f_data f) (Z.to_nat p * f_channels f) total), Nat.min total (length (f_data f) - Z.to_nat p * f_channels f)) /\
       (snd_current f2 * Z.of_nat (f_channels f) = p * Z.of_nat (f_channels f) + Z.of_nat (Nat.min total (length (f_data f) - Z.to_nat p * f_channels f)))%Z)
  \/ ~ (0 <= p <= Z.of_nat (length (f_data f) / f_channels f))%Z /\ q = (-1)%Z /\ f1 = f.
Proof.
  intros HN G DN DT R E. unfold snd_seek in E. destruct (Z.leb_spec 0 p); [destruct (Z.leb_spec p (Z.of_nat (length (f_data f) / f_channels f)))|]; cbn [andb] in E; injection E as <- <-.
  - left. split; [lia|]. split; auto. split; [unfold snd_current; cbn; lia|]. destruct G as [P [[k K] L]].
    assert (B : Z.to_nat p <= length (f_data f) / f_channels f) by lia. rewrite K, Nat.div_mul in B by lia.
    assert (G1 : good_file (mkFile (f_data f) (f_channels f) (Z.to_nat p))). { unfold good_file. cbn. split; auto. split; [exists k; auto|]. rewrite K. apply Nat.mul_le_mono_r. auto. }
    destruct (C57_snd_read N _ mem first total HN G1 DN DT R) as [f2 [E2 [A2 [B2 [P2 _]]]]]. cbn [f_data f_channels f_pos] in *. exists f2. unfold left_of in *. cbn [f_data f_channels f_pos] in *. split; [|unfold snd_current; rewrite B2 in P2; nia].
    rewrite E2. f_equal. f_equal. f_equal. symmetry. rewrite slice_min at 1. reflexivity.
  - right. split; [lia|auto].
  - right. split; [lia|auto].
Qed.

(** * C78: writing and reading back *)
Lemma to_int32_small n : (Z.of_nat n < 2 ^ 31)%Z -> to_int32 (Z.of_nat n) = Z.of_nat n.
Proof. intros H. unfold to_int32. rewrite Z.mod_small by lia. lia. Qed.
(** Whole frames, fewer than 2^31 samples: everything is appended. *)
Theorem C78_write {A} c (data vals : list A) : 0 < c -> vals <> [] -> Nat.divide c (length vals) -> (Z.of_nat (length vals) < 2 ^ 31)%Z ->
  snd_write c data vals = Ok (data ++ vals, Z.of_nat (length vals)).
Proof.
  intros C V D L. unfold snd_write. destruct vals as [|v t]; [congruence|]. set (w := v :: t) in *. rewrite to_int32_small by auto. assert (0 < length w) by (cbn; lia).
  destruct (Z.ltb_spec 0 (Z.of_nat (length w))); [|lia]. destruct D as [k K]. rewrite K, Nat2Z.inj_mul, Z.mod_mul by lia. cbn [andb Z.eqb]. rewrite <- Nat2Z.inj_mul, <- K, Nat2Z.id, firstn_all. reflexivity.
Qed.
(** Blocks written one after the other read back as their concatenation. *)
Theorem C78_round_trip {A} c N (blocks : list (list A)) mem : 0 < c -> 0 < N -> Nat.divide c N ->
  Forall (fun b => b <> [] /\ Nat.divide c (length b) /\ (Z.of_nat (length b) < 2 ^ 31)%Z) blocks -> length mem = length (concat blocks) ->
  exists data f', fold_left (fun r b => d <- r ;; p <- snd_write c d b ;; Ok (fst p)) blocks (Ok []) = Ok data /\
    snd_read N (mkFile data c 0) mem 0 (length mem) = Ok (f', concat blocks, length mem).
Proof.
  intros C HN DN F LM.
  assert (W : forall d, fold_left (fun r b => d <- r ;; p <- snd_write c d b ;; Ok (fst p)) blocks (Ok d) = Ok (d ++ concat blocks)).
  { clear LM. induction F as [|b bs [B1 [B2 B3]] F IH]; intros d; cbn [fold_left concat]; [rewrite app_nil_r; auto|]. cbn [bind]. rewrite C78_write by auto. cbn [bind fst]. rewrite IH, app_assoc. reflexivity. }
  exists (concat blocks). specialize (W []). cbn [app] in W. rewrite W.
  assert (D : Nat.divide c (length (concat blocks))). { clear LM W. induction F as [|b bs [B1 [B2 B3]] F IH]; cbn [concat]; [exists 0; auto|]. rewrite app_length. apply Nat.divide_add_r; auto. }
  assert (G : good_file (mkFile (concat blocks) c 0)) by (unfold good_file; cbn; repeat split; auto; lia).
  destruct (C57_snd_read N (mkFile (concat blocks) c 0) mem 0 (length mem) HN G DN) as [f' [E _]]; [cbn; rewrite LM; auto|unfold in_range; lia|]. exists f'. split; auto. rewrite E. unfold left_of. cbn [f_data f_channels f_pos]. rewrite Nat.mul_0_l, Nat.sub_0_r, LM, Nat.min_id. f_equal. f_equal. f_equal.
  unfold slice. cbn [skipn]. rewrite firstn_all. unfold written. cbn [firstn app plus]. rewrite <- LM, skipn_all, app_nil_r. reflexivity.
Qed.
(** VIOLATION: a block that is not a whole number of frames is dropped, and an empty block is dereferenced. *)
Theorem C78_partial_frame_refuted {A} c (data vals : list A) : 0 < c -> vals <> [] -> ~ Nat.divide c (length vals) -> (Z.of_nat (length vals) < 2 ^ 31)%Z ->
  snd_write c data vals = Ok (data, 0%Z).
Proof.
  intros C V D L. unfold snd_write. destruct vals as [|v t]; [congruence|]. set (w := v :: t) in *. rewrite to_int32_small by auto. destruct (Z.eqb_spec (Z.of_nat (length w) mod Z.of_nat c) 0) as [E|E]; [|rewrite Bool.andb_false_r; auto].
  exfalso. apply D. apply Z.mod_divide in E; [|lia]. destruct E as [k K]. exists (Z.to_nat k). nia.
Qed.
Theorem C78_empty_refuted {A} c (data : list A) : snd_write c data [] = UB. Proof. reflexivity. Qed.
Example C78_ex : snd_write 2 [1] [2; 3; 4; 5] = Ok ([1; 2; 3; 4; 5], 4%Z). Proof. reflexivity. Qed.

(** * C58: handles *)
Lemma existsb_In h l : existsb (Nat.eqb h) l = true <-> In h l.
Proof. rewrite existsb_exists. split; [intros [x [I E]]; apply Nat.eqb_eq in E; subst; auto|intros I; exists h; rewrite Nat.eqb_refl; auto]. Qed.
Lemma liveb_live w h : liveb w h = true <-> live w h.
Proof.
  unfold liveb, live. rewrite Bool.andb_true_iff, existsb_In, Bool.negb_true_iff. split; intros [A B]; split; auto.
  - intros I. apply existsb_In in I. congruence.
  - destruct (existsb (Nat.eqb h) (closed w)) eqn:E; auto. apply existsb_In in E. contradiction.
Qed.
(** Every handle ever opened is below the counter, and the closed ones are exactly the opened ones but
    the current. *)
Definition consistent (s : world * option nat) : Prop :=
  opened (fst s) = seq 0 (length (opened (fst s))) /\
  match snd s with None => closed (fst s) = opened (fst s) | Some h => opened (fst s) = closed (fst s) ++ [h] end.
Lemma consistent_live s h : consistent s -> snd s = Some h -> live (fst s) h.
Proof.
  intros [A B] E. rewrite E in B. split; [rewrite B; apply in_or_app; right; left; auto|]. intros I. assert (N : NoDup (opened (fst s))) by (rewrite A; apply seq_NoDup). rewrite B in N. apply NoDup_remove_2 in N. rewrite app_nil_r in N. contradiction.
Qed.
Lemma consistent_close s : consistent s -> exists w, (match snd s with None => Ok s | Some h => w <- w_close (fst s) h ;; Ok (w, None) end) = Ok (w, None) /\ consistent (w, None) /\ opened w = opened (fst s).
Proof.
  intros C. destruct s as [w [h|]]; cbn [fst snd] in *.
  - pose proof (consistent_live (w, Some h) h C eq_refl) as L. apply liveb_live in L. cbn [fst] in L. unfold w_close. rewrite L. cbn [bind]. eexists. split; [reflexivity|]. split; [|reflexivity]. destruct C as [A B]. cbn [fst snd] in *. split; cbn; auto.
  - exists w. auto.
Qed.
Lemma consistent_open w ok : consistent (w, None) -> consistent (w_open w ok).
Proof.
  intros [A B]. cbn [fst snd] in *. unfold w_open. destruct ok; [|split; auto]. split; cbn [fst snd opened closed].
  - rewrite app_length. cbn [length]. rewrite seq_app, <- A. reflexivity.
  - rewrite B. reflexivity.
Qed.
(** Uses only while is_open() says so. *)
Fixpoint uses_checked (open : bool) (h : list hop) : Prop :=
  match h with [] => True | HOpen ok :: t => uses_checked ok t | HClose :: t => uses_checked false t | HUse :: t => open = true /\ uses_checked open t end.
Lemma af_run_consistent h : forall s, consistent s -> uses_checked (is_open s) h -> exists s', hrun af_hop s h = Ok s' /\ consistent s'.
Proof.
  induction h as [|c h IH]; intros s C U; [exists s; auto|]. cbn [hrun]. destruct c as [ok| |]; cbn [af_hop uses_checked] in *.
  - destruct (consistent_close s C) as [w [E [Cw _]]]. unfold af_close. rewrite E. cbn [bind fst]. apply IH; [apply consistent_open; auto|]. destruct ok; exact U.
  - destruct (consistent_close s C) as [w [E [Cw _]]]. unfold af_close. rewrite E. cbn [bind fst]. apply IH; auto.
  - destruct U as [O U]. unfold is_open in O. destruct (snd s) as [x|] eqn:S; [|discriminate]. pose proof (consistent_live s x C S) as L. apply liveb_live in L. rewrite L. cbn [bind]. apply IH; auto.
Qed.
(** audiofile: every handle is opened once and closed exactly once, in order, and is_open() tells the truth. *)
Theorem C58_audiofile h : uses_checked false h -> exists w, af_life h = Ok w /\ closed w = opened w /\ NoDup (opened w) /\
  forall h1 h2, h = h1 ++ h2 -> exists s, hrun af_hop fresh h1 = Ok s /\ (is_open s = true <-> exists x, live (fst s) x).
Proof.
  assert (C0 : consistent fresh) by (split; reflexivity).
  intros U. destruct (af_run_consistent h fresh C0 U) as [s [E C]]. unfold af_life. rewrite E. cbn [bind]. destruct (consistent_close s C) as [w [E2 [[C1 C2] _]]]. unfold af_close. rewrite E2. cbn [bind fst]. exists w. cbn [fst snd] in *.
  split; auto. split; auto. split; [rewrite C1; apply seq_NoDup|]. intros h1 h2 ->.
  assert (U1 : uses_checked false h1). { clear -U. revert U. generalize false. induction h1 as [|c h1 IH]; intros b U; cbn; auto. destruct c; cbn in U; auto. destruct U. auto. }
  destruct (af_run_consistent h1 fresh C0 U1) as [s1 [E1 Cs]]. exists s1. split; auto. unfold is_open. split.
  - destruct (snd s1) as [x|] eqn:S; [|discriminate]. intros _. exists x. apply consistent_live; auto.
  - destruct (snd s1) as [x|] eqn:S; auto. intros [x [L1 L2]]. destruct Cs as [_ Cs]. rewrite S in Cs. rewrite Cs in L2. contradiction.
Qed.
(** libsndfile (decoder and encoder): an explicit close() of an open file. *)
Fixpoint closes_explicitly (open : bool) (h : list hop) : Prop :=
  match h with [] => False | HOpen ok :: t => closes_explicitly ok t | HClose :: t => open = true \/ closes_explicitly open t | HUse :: t => closes_explicitly open t end.
Lemma snd_dead h : forall w x, liveb w x = false -> (s <- hrun snd_hop (w, Some x) h ;; t <- snd_close s ;; Ok (fst t)) = UB.
Proof.
  intros w x D. assert (K : snd_close (w, Some x) = UB) by (unfold snd_close; cbn; unfold w_close; rewrite D; reflexivity).
  destruct h as [|[ok| |] h]; cbn [hrun snd_hop bind]; rewrite ?K; auto. cbn [snd fst]. rewrite D. reflexivity.
Qed.
Lemma snd_life_from h : forall s, consistent s ->
  (closes_explicitly (is_open s) h -> (s <- hrun snd_hop s h ;; t <- snd_close s ;; Ok (fst t)) = UB) /\
  (~ closes_explicitly (is_open s) h -> exists w, (s <- hrun snd_hop s h ;; t <- snd_close s ;; Ok (fst t)) = Ok w /\ closed w = opened w /\ NoDup (opened w)).
Proof.
  induction h as [|c h IH]; intros s C.
  - cbn [hrun bind closes_explicitly]. split; [intros []|]. intros _. destruct (consistent_close s C) as [w [E [[C1 C2] O]]]. cbn [fst snd] in *. destruct s as [w0 [x|]]; unfold snd_close; cbn [fst snd] in *.
    + destruct (w_close w0 x) as [w'| |]; try discriminate. cbn [bind] in *. injection E as <-. cbn. exists w'. split; auto. split; auto. rewrite C1. apply seq_NoDup.
    + injection E as <-. cbn. exists w0. split; auto. split; auto. rewrite C1. apply seq_NoDup.
  - destruct c as [ok| |]; cbn [hrun closes_explicitly].
    + cbn [snd_hop]. destruct (consistent_close s C) as [w [E [Cw O]]].
      assert (E' : exists t, snd_close s = Ok t /\ fst t = w). { destruct s as [w0 [x|]]; unfold snd_close; cbn [fst snd] in *; [destruct (w_close w0 x) as [w'| |]; try discriminate; cbn [bind] in *; injection E as <-; eauto|injection E as <-; eauto]. }
      destruct E' as [t [-> T]]. cbn [bind]. rewrite T. assert (I : is_open (w_open w ok) = ok) by (destruct ok; reflexivity). pose proof (IH _ (consistent_open w ok Cw)) as J. rewrite I in J. exact J.
    + cbn [snd_hop]. destruct s as [w0 [x|]]; cbn [is_open snd].
      * split; [|intros N; exfalso; apply N; auto]. intros _. pose proof (consistent_live (w0, Some x) x C eq_refl) as L. cbn [fst] in L. unfold snd_close at 1. cbn [fst snd]. unfold w_close. pose proof (proj2 (liveb_live _ _) L) as Lb. rewrite Lb. cbn [bind]. apply snd_dead.
        unfold liveb. cbn [opened closed]. assert (I : In x (closed w0 ++ [x])) by (apply in_or_app; right; left; auto). apply existsb_In in I. rewrite I. apply Bool.andb_false_r.
      * cbn [snd_close snd bind]. specialize (IH (w0, None) C). cbn [is_open snd] in IH. split; [intros [?|?]; [discriminate|tauto]|intros N; apply IH; tauto].
    + cbn [snd_hop]. destruct s as [w0 [x|]]; cbn [is_open snd fst].
      * pose proof (consistent_live (w0, Some x) x C eq_refl) as L. cbn [fst] in L. rewrite (proj2 (liveb_live _ _) L). cbn [bind]. apply (IH (w0, Some x) C).
      * cbn [bind]. apply (IH (w0, None) C).
Qed.
(** VIOLATION: any history that closes an open file explicitly ends in a double close, at the latest in
    the destructor; all others close every handle exactly once. *)
Theorem C58_sndfile_actual h : (closes_explicitly false h -> snd_life h = UB) /\
  (~ closes_explicitly false h -> exists w, snd_life h = Ok w /\ closed w = opened w /\ NoDup (opened w)).
Proof. apply (snd_life_from h fresh). split; reflexivity. Qed.
Theorem C58_sndfile_refuted h1 h2 : snd_life (h1 ++ HOpen true :: HClose :: h2) = UB.
Proof. apply C58_sndfile_actual. generalize false. induction h1 as [|[ok| |] h1 IH]; intros b; cbn; auto. Qed.
(** is_open() stays true after close(). *)
Theorem C58_sndfile_is_open_refuted : exists s, hrun snd_hop fresh [HOpen true; HClose] = Ok s /\ is_open s = true /\ forall x, ~ live (fst s) x.
Proof. eexists. split; [reflexivity|]. split; [reflexivity|]. intros x [A B]. cbn in *. tauto. Qed.
Example C58_ex : af_life [HOpen true; HUse; HOpen false; HClose; HOpen true; HUse] = Ok (mkWorld [0; 1] [0; 1]). Proof. reflexivity. Qed.

(** * C79: sizes in the Python wrappers *)
(** The output allowed to libsamplerate always fits in the array the wrapper allocates. *)
Theorem C79_resampler_output_fits c size ratio : 0 < c -> (0 <= ratio)%Q -> snd (src_sizes c size ratio) * c <= py_expected size ratio.
Proof.
  intros C R. unfold src_sizes, py_expected. cbn [snd]. set (i := size / c). assert (I : i * c <= size) by (unfold i; rewrite Nat.mul_comm; apply Nat.mul_div_le; lia).
  assert (P : (0 <= Qfloor (ratio * inject_Z (Z.of_nat i)))%Z). { change 0%Z with (Qfloor 0). apply Qfloor_resp_le. apply Qmult_le_0_compat; auto. change 0%Q with (inject_Z 0). rewrite <- Zle_Qle. lia. }
  enough (E : (Qfloor (ratio * inject_Z (Z.of_nat i)) * Z.of_nat c <= Qfloor (inject_Z (Z.of_nat size) * ratio))%Z) by nia.
  rewrite <- (Qfloor_Z (Qfloor (ratio * inject_Z (Z.of_nat i)) * Z.of_nat c)). apply Qfloor_resp_le. rewrite inject_Z_mult.
  apply Qle_trans with (ratio * inject_Z (Z.of_nat i) * inject_Z (Z.of_nat c))%Q.
  - apply Qmult_le_compat_r; [apply Qfloor_le|]. change 0%Q with (inject_Z 0). rewrite <- Zle_Qle. lia.
  - rewrite <- Qmult_assoc, <- inject_Z_mult, Qmult_comm. apply Qmult_le_compat_r; auto. rewrite <- Zle_Qle. lia.
Qed.
(** VIOLATION: the array given back is too small by the channel count; copying into it overflows. *)
Lemma put_overflow {A} (vals : list A) : forall mem d, length mem < d + length vals -> d <= length mem -> put mem d vals = UB.
Proof.
  induction vals as [|v t IH]; intros mem d L D; cbn [length] in L; [lia|]. cbn [put]. destruct (Nat.eq_dec d (length mem)) as [->|N].
  - rewrite store_ub by lia. reflexivity.
  - rewrite store_written by (unfold in_range; lia). cbn [bind]. apply IH; rewrite written_length by (unfold in_range; cbn; lia); lia.
Qed.
Theorem C79_resampler_copy_refuted {A} (init : A) c gen data : 2 <= c -> 0 < gen -> gen * c <= length data -> py_final_copy init c gen data = UB.
Proof. intros C G L. unfold py_final_copy. apply put_overflow; rewrite ?repeat_length, ?firstn_length; nia. Qed.
Theorem C79_resampler_copy_mono {A} (init : A) gen data : gen <= length data -> py_final_copy init 1 gen data = Ok (firstn gen data).
Proof.
  intros L. unfold py_final_copy. rewrite Nat.mul_1_r. assert (F : length (firstn gen data) = gen) by (rewrite firstn_length; lia). rewrite put_ok by (unfold in_range; rewrite repeat_length; lia).
  unfold written. cbn [firstn app plus]. rewrite F. rewrite skipn_all2 by (rewrite repeat_length; lia). rewrite app_nil_r. reflexivity.
Qed.
(** The decoder wrapper: an exception unless the whole request was read, undefined before open. *)
Theorem C79_decoder_shape size read c : read <= size ->
  (c = 0 -> py_decoder_shape size read c = UB) /\
  (0 < c -> read < size -> py_decoder_shape size read c = Ok None) /\
  (0 < c -> Nat.divide c size -> py_decoder_shape size size c = Ok (Some (size / c, c))).
Proof.
  intros L. unfold py_decoder_shape. repeat split.
  - intros ->. reflexivity.
  - intros C R. destruct (Nat.eqb_spec c 0); [lia|]. destruct (Nat.eqb_spec (read / c * c) size) as [E|E]; auto. exfalso. pose proof (Nat.mul_div_le read c ltac:(lia)). lia.
  - intros C [k K]. destruct (Nat.eqb_spec c 0); [lia|]. rewrite K, Nat.div_mul, Nat.eqb_refl by lia. reflexivity.
Qed.
Example C79_ex : py_decoder_shape 8 8 2 = Ok (Some (4, 2)) /\ py_decoder_shape 8 6 2 = Ok None. Proof. split; reflexivity. Qed.
Print Assumptions C57_snd_read.
Print Assumptions C57_consecutive.
Print Assumptions C57_block_refuted.
Print Assumptions C57_partial_frame_refuted.
Print Assumptions C57_audiofile_mono.
Print Assumptions C57_audiofile_overflow_refuted.
Print Assumptions C57_audiofile_skips_refuted.
Print Assumptions C77_seek.
Print Assumptions C78_write.
Print Assumptions C78_round_trip.
Print Assumptions C78_partial_frame_refuted.
Print Assumptions C78_empty_refuted.
Print Assumptions C58_audiofile.
Print Assumptions C58_sndfile_actual.
Print Assumptions C58_sndfile_refuted.
Print Assumptions C58_sndfile_is_open_refuted.
Print Assumptions C79_resampler_output_fits.
Print Assumptions C79_resampler_copy_refuted.
Print Assumptions C79_resampler_copy_mono.
Print Assumptions C79_decoder_shape.
