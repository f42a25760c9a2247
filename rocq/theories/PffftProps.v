(** Theorems C51-C56, C80, C81 for the PFFFT back end; the built-in cosine transforms of C55. *)
From Verif Require Import Base BaseProofs RealBase RealBaseProofs AlgModel PffftModel SpectralSpec CplxProofs FourierProofs SpectralProofs SpectralProps LeeProofs.
From Verif Require Import Cplx.
From Coq Require Import ZArith Lia.
Local Open Scope res_scope.
Local Open Scope R_scope.

(** * Memory views *)
Lemma complexes_floats l : complexes (floats l) = l.
Proof. induction l as [|[a b] l IH]; [reflexivity|]. cbn. unfold floats in IH. rewrite IH. reflexivity. Qed.
Lemma floats_length l : length (floats l) = (2 * length l)%nat.
Proof. induction l as [|z l IH]; [reflexivity|]. cbn [floats flat_map app length]. unfold floats in IH. rewrite IH. lia. Qed.
Lemma floats_app a b : floats (a ++ b) = floats a ++ floats b.
Proof. apply flat_map_app. Qed.
Lemma floats_skipn n l : skipn (2 * n) (floats l) = floats (skipn n l).
Proof. revert l. induction n as [|n IH]; intros l; [reflexivity|]. destruct l as [|z l]; [rewrite skipn_nil; reflexivity|]. replace (2 * S n)%nat with (S (S (2 * n))) by lia. cbn [floats flat_map app skipn]. apply IH. Qed.
Lemma nth_floats l k : (k < length l)%nat -> nth (2 * k) (floats l) 0 = Re (nth k l C0) /\ nth (2 * k + 1) (floats l) 0 = Im (nth k l C0).
Proof.
  revert k. induction l as [|z l IH]; intros k K; cbn [length] in K; [lia|]. destruct k as [|k]; [split; reflexivity|]. replace (2 * S k)%nat with (S (S (2 * k))) by lia. cbn [Nat.add]. cbn [floats flat_map app nth]. apply IH. lia.
Qed.

Lemma nth_map_lt {A B} (f : A -> B) l i da db : (i < length l)%nat -> nth i (map f l) db = f (nth i l da).
Proof. intros H. rewrite (nth_indep _ db (f da)) by (rewrite map_length; auto). apply map_nth. Qed.

(** * Sizes *)
Lemma strip_pow p m : (1 < p)%Z -> (m mod p <> 0)%Z -> forall k fuel, (k <= fuel)%nat -> strip fuel p (p ^ Z.of_nat k * m) = m.
Proof.
  intros P M. induction k as [|k IH]; intros fuel H.
  - rewrite Z.pow_0_r, Z.mul_1_l. destruct fuel; [reflexivity|]. cbn [strip]. destruct (Z.eqb_spec (m mod p) 0); [contradiction|reflexivity].
  - destruct fuel as [|fuel]; [lia|]. cbn [strip]. rewrite Nat2Z.inj_succ, Z.pow_succ_r by lia. rewrite <- Z.mul_assoc. rewrite Z.mul_comm, Z_mod_mult. cbn [Z.eqb]. rewrite Z.div_mul by lia. apply IH. lia.
Qed.
Lemma pow2_supported k m kind : (m = 1 \/ m = 3)%Z -> (k <= 31)%nat -> ((match kind with PReal => 5 | PComplex => 4 end) <= k)%nat -> pffft_supported kind (2 ^ Z.of_nat k * m) = true.
Proof.
  intros M K1 K2. unfold pffft_supported. rewrite strip_pow; [|lia|destruct M; subst; cbn; lia|lia].
  assert (P : (0 < 2 ^ Z.of_nat k)%Z) by (apply Z.pow_pos_nonneg; lia).
  replace (0 <? 2 ^ Z.of_nat k * m)%Z with true by (symmetry; apply Z.ltb_lt; nia).
  replace (strip 31 5 (strip 31 3 m) =? 1)%Z with true by (destruct M; subst; reflexivity). rewrite Bool.andb_true_r. cbn [andb]. apply Z.eqb_eq. destruct kind.
  - replace (Z.of_nat k) with (5 + (Z.of_nat k - 5))%Z by lia. rewrite Z.pow_add_r by lia. change (2 ^ 5)%Z with 32%Z. rewrite <- Z.mul_assoc, Z.mul_comm. apply Z_mod_mult.
  - replace (Z.of_nat k) with (4 + (Z.of_nat k - 4))%Z by lia. rewrite Z.pow_add_r by lia. change (2 ^ 4)%Z with 16%Z. rewrite <- Z.mul_assoc, Z.mul_comm. apply Z_mod_mult.
Qed.
Lemma new_pengine_ok n : (Z.of_nat n mod 16 = 0)%Z -> (Z.of_nat n < 2 ^ 31)%Z -> new_pengine (Z.of_nat n) = Ok (mkPengine (Z.of_nat n) None).
Proof. intros M B. unfold new_pengine. rewrite to_int32_id by lia. rewrite M. reflexivity. Qed.
Lemma supported_16 k n : pffft_supported k n = true -> (n mod 16 = 0)%Z /\ (0 < n)%Z.
Proof.
  unfold pffft_supported. intros H. apply andb_prop in H. destruct H as [H _]. apply andb_prop in H. destruct H as [P M]. apply Z.ltb_lt in P. apply Z.eqb_eq in M. split; auto. destruct k; auto.
  apply Z.mod_divide in M; [|lia]. destruct M as [q ->]. replace (q * 32)%Z with (q * 2 * 16)%Z by ring. apply Z_mod_mult.
Qed.
Lemma supported_32 n : pffft_supported PReal (Z.of_nat n) = true -> exists q, n = (32 * q)%nat /\ (0 < q)%nat.
Proof.
  unfold pffft_supported. intros H. apply andb_prop in H. destruct H as [H _]. apply andb_prop in H. destruct H as [P M]. apply Z.ltb_lt in P. apply Z.eqb_eq in M. apply Z.mod_divide in M; [|lia]. destruct M as [q Q]. exists (Z.to_nat q). split; lia.
Qed.
Lemma setup_new n k : pffft_supported k (Z.of_nat n) = true -> setup_for (mkPengine (Z.of_nat n) None) k = Some k.
Proof. intros H. unfold setup_for. cbn [psetup psize]. rewrite H. reflexivity. Qed.
Lemma ppoints_ok n p : ppoints (mkPengine (Z.of_nat n) p) = n.
Proof. apply Nat2Z.id. Qed.

(** * C55: the built-in fast cosine transforms, every power-of-two length *)
Lemma for_range_ext {S} n (f g : nat -> S -> res S) s : (forall i s, (i < n)%nat -> f i s = g i s) -> for_range n f s = for_range n g s.
Proof. intros H. induction n as [|n IH]; [reflexivity|]. cbn [for_range]. rewrite IH by (intros; apply H; lia). destruct (for_range n g s); cbn [bind]; auto. Qed.
Lemma double_loop v : for_range (length v) (fun i v => x <- load v i ;; store v i (x * 2)) v = Ok (map (fun x => x * 2) v).
Proof.
  destruct (for_range_inv (fun n v' => length v' = length v /\ forall i, nth i v' 0 = if (i <? n)%nat then nth i v 0 * 2 else nth i v 0) (length v) (fun i v => x <- load v i ;; store v i (x * 2)) v) as [v' [E [L P]]].
  - split; auto.
  - intros i s Hi [L P]. rewrite (load_nth s i 0) by lia. cbn [bind]. destruct (store_nth s i (nth i s 0 * 2)) as [s1 [E1 [L1 [_ [N1 O1]]]]]; [lia|]. exists s1. split; auto. split; [lia|]. intros j. destruct (Nat.eq_dec j i) as [->|N].
    + rewrite N1, P, Nat.ltb_irrefl. destruct (Nat.ltb_spec i (S i)); [reflexivity|lia].
    + rewrite O1, P by auto. destruct (Nat.ltb_spec j i); destruct (Nat.ltb_spec j (S i)); try lia; reflexivity.
  - rewrite E. f_equal. apply (nth_ext _ _ 0 0); [rewrite map_length; auto|]. intros i Hi. rewrite P. destruct (Nat.ltb_spec i (length v)); [|lia]. rewrite (nth_map_lt _ v i 0) by auto. reflexivity.
Qed.
Lemma D_dct2 x k : D (length x) (fun j => nth j x 0) k = dct2 x k.
Proof. unfold D, dct2. apply sumf_ext. intros j _. f_equal. f_equal. unfold Rdiv. ring. Qed.
Theorem C55_lee_dct k x : length x = (2 ^ k)%nat -> exists X, lee_dct x (length x) = Ok X /\ tabulates X (length x) (fun i => 2 * dct2 x i).
Proof.
  intros L. unfold lee_dct. rewrite L. destruct (forward_pow2 k (S (2 ^ k)) x 0 (repeat 0 (2 ^ k)) 0) as [v [t [E [Lv [_ [Q _]]]]]]; [pose proof (Nat.pow_gt_lin_r 2 k ltac:(lia)); lia|lia|rewrite repeat_length; lia|].
  rewrite E. cbn [bind fst]. rewrite <- L, <- Lv, double_loop. eexists. split; [reflexivity|]. split; [apply map_length|]. intros i d Hi. rewrite (nth_map_lt _ v i 0) by auto. change i with (0 + i)%nat at 1. rewrite Q by lia. cbn [Nat.add]. rewrite <- L, D_dct2. ring.
Qed.
Lemma halve_first (v : list R) : (0 < length v)%nat -> exists v', store v 0 (nth 0 v 0 / 2) = Ok v' /\ length v' = length v /\ nth 0 v' 0 = nth 0 v 0 / 2 /\ forall j, (0 < j)%nat -> nth j v' 0 = nth j v 0.
Proof. intros H. destruct (store_nth v 0 (nth 0 v 0 / 2) H) as [v' [E [L [_ [N O]]]]]. exists v'. repeat split; auto. intros j Hj. apply O. lia. Qed.
Theorem C55_lee_idct k x : length x = (2 ^ k)%nat -> exists X, lee_idct x (length x) = Ok X /\ tabulates X (length x) (fun i => 2 * dct3 x i).
Proof.
  intros L. pose proof (Nat.pow_nonzero 2 k ltac:(lia)) as NZ. unfold lee_idct. rewrite double_loop. cbn [bind]. set (w := map (fun x => x * 2) x). assert (Lw : length w = length x) by apply map_length.
  rewrite (load_nth w 0 0) by lia. cbn [bind]. destruct (halve_first w) as [w' [E' [L' [H0 HS]]]]; [lia|]. rewrite E'. cbn [bind]. rewrite L.
  destruct (inverse_pow2 k (S (2 ^ k)) w' 0 (repeat 0 (2 ^ k)) 0) as [v [t [E [Lv [_ [Q _]]]]]]; [pose proof (Nat.pow_gt_lin_r 2 k ltac:(lia)); lia|lia|rewrite repeat_length; lia|].
  rewrite E. cbn [bind fst]. eexists. split; [reflexivity|]. split; [lia|]. intros i d Hi. rewrite (nth_indep _ d 0) by lia. change i with (0 + i)%nat at 1. rewrite Q by lia. unfold I3, dct3. rewrite L.
  assert (W : forall j, (j < length x)%nat -> nth j w 0 = 2 * nth j x 0) by (intros j Hj; unfold w; rewrite (nth_map_lt _ x j 0) by auto; ring).
  set (n := (2 ^ k)%nat) in *. assert (EN : forall f, sumf f n = sumf f (S (n - 1))) by (intros; f_equal; lia). rewrite EN, sumf_S_l. cbn [Nat.add]. rewrite H0, W by lia. simpl (INR 0). replace (PI * 0 * (INR i + 1 / 2) / INR n) with 0 by (unfold Rdiv; ring). rewrite cos_0.
  rewrite (sumf_ext _ (fun j => 2 * (nth (S j) x 0 * cos (PI / INR n * INR (S j) * (INR i + 1 / 2))))).
  - rewrite sumf_scal. field.
  - intros j Hj. rewrite HS, W by lia. replace (PI * INR (S j) * (INR i + 1 / 2) / INR n) with (PI / INR n * INR (S j) * (INR i + 1 / 2)) by (unfold Rdiv; ring). ring.
Qed.
Example C55_lee_ex : length [1; 2; 3; 4] = (2 ^ 2)%nat. Proof. reflexivity. Qed.
Lemma copy_all (x d : list R) n : length x = n -> length d = n -> copy_front x d n = Ok x.
Proof. intros Lx Ld. unfold copy_front. rewrite Lx, Ld, Nat.ltb_irrefl. cbn [orb]. rewrite <- Lx at 1. rewrite firstn_all, <- Ld, skipn_all, app_nil_r. reflexivity. Qed.
(** The two back ends agree on powers of two (at least 32 for dct, 16 for idct). *)
Theorem C55_pffft_dct k x dst : (5 <= k)%nat -> length x = (2 ^ k)%nat -> (Z.of_nat (length x) < 2 ^ 31)%Z -> length dst = length x -> p_dct x dst = dct x.
Proof.
  intros K L B Ld. assert (F : fits (length x)) by (split; [pose proof (Nat.pow_nonzero 2 k); lia|auto]). assert (K31 : (k < 31)%nat). { rewrite L, Nat2Z.inj_pow in B. apply Z.pow_lt_mono_r_iff in B; lia. }
  assert (EZ : Z.of_nat (length x) = (2 ^ Z.of_nat k * 1)%Z) by (rewrite L, Nat2Z.inj_pow; lia). assert (SP : pffft_supported PReal (Z.of_nat (length x)) = true) by (rewrite EZ; apply pow2_supported; auto; lia).
  destruct (C55_lee_dct k x L) as [X [E T]]. destruct (C55_dct_actual x F) as [X' [E' T']]. rewrite E'. unfold p_dct, zlen. rewrite new_pengine_ok; [|apply (supported_16 _ _ SP)|auto]. cbn [bind]. unfold pe_dct. rewrite setup_new by auto. rewrite ppoints_ok, (copy_all x dst) by auto. cbn [bind]. rewrite E. cbn [bind snd]. f_equal. apply tab_eq in T. apply tab_eq in T'. congruence.
Qed.
Theorem C55_pffft_idct k x dst : (4 <= k)%nat -> length x = (2 ^ k)%nat -> (2 * Z.of_nat (length x) < 2 ^ 31)%Z -> length dst = length x -> p_idct x dst = idct x.
Proof.
  intros K L B Ld. assert (F : fits (length x)) by (split; [pose proof (Nat.pow_nonzero 2 k); lia|lia]). assert (M : (Z.of_nat (length x) mod 16 = 0)%Z).
  { rewrite L, Nat2Z.inj_pow. replace (Z.of_nat k) with (Z.of_nat k - 4 + 4)%Z by lia. rewrite Z.pow_add_r by lia. apply Z_mod_mult. }
  destruct (C55_lee_idct k x L) as [X [E T]]. destruct (C55_idct_actual x F B) as [X' [E' T']]. rewrite E'. unfold p_idct, zlen. rewrite new_pengine_ok by (auto; lia). cbn [bind]. unfold pe_idct. rewrite ppoints_ok, (copy_all x dst) by auto. cbn [bind]. rewrite E. cbn [bind fst snd]. unfold as_engine. cbn [psize].
  assert (LX : length X = length x) by apply T. rewrite idct_scale_ok by auto. f_equal. apply tab_eq in T. apply tab_eq in T'. rewrite T', T, map_map. apply map_ext. intros i. destruct F as [P _]. pose proof (INR_neq0 _ P). field. auto.
Qed.
Theorem C55_pffft_round_trip k x X d1 d2 : (5 <= k)%nat -> length x = (2 ^ k)%nat -> (2 * Z.of_nat (length x) < 2 ^ 31)%Z -> length d1 = length x -> length d2 = length x ->
  p_dct x d1 = Ok X -> p_idct X d2 = Ok x.
Proof.
  intros K L B L1 L2 E. rewrite (C55_pffft_dct k) in E by (auto; lia). assert (F : fits (length x)) by (split; [pose proof (Nat.pow_nonzero 2 k); lia|lia]). destruct (C55_dct_actual x F) as [X' [E' [LX _]]]. assert (X' = X) by congruence. subst X'. rewrite (C55_pffft_idct k) by (rewrite ?LX; auto; lia). apply C55_round_trip; auto.
Qed.
(** VIOLATION: other lengths the back end accepts, such as 96, are transformed wrongly. *)
Theorem C55_pffft_three k c dst : (5 <= k <= 29)%nat -> length dst = (3 * 2 ^ k)%nat -> (Z.of_nat (3 * 2 ^ k) < 2 ^ 31)%Z ->
  exists X, p_dct (repeat c (3 * 2 ^ k)) dst = Ok X /\ nth 0 X 0 = 2 * (2 ^ k * c) /\ dct2 (repeat c (3 * 2 ^ k)) 0 = 3 * 2 ^ k * c.
Proof.
  intros K Ld B. set (n := (3 * 2 ^ k)%nat) in *. set (x := repeat c n). assert (Lx : length x = n) by apply repeat_length.
  assert (EZ : Z.of_nat n = (2 ^ Z.of_nat k * 3)%Z) by (unfold n; rewrite Nat2Z.inj_mul, Nat2Z.inj_pow; lia). assert (SP : pffft_supported PReal (Z.of_nat n) = true) by (rewrite EZ; apply pow2_supported; auto; lia).
  unfold p_dct, zlen. rewrite Lx. rewrite new_pengine_ok; [|apply (supported_16 _ _ SP)|auto]. cbn [bind]. unfold pe_dct. rewrite setup_new by auto. rewrite ppoints_ok, copy_all by auto. cbn [bind]. unfold lee_dct.
  pose proof (Nat.pow_gt_lin_r 2 k ltac:(lia)).
  assert (Nc : forall i, (i < n)%nat -> nth i x 0 = c) by (intros i Hi; unfold x; rewrite (nth_indep _ 0 c) by (rewrite repeat_length; auto); apply nth_repeat).
  destruct (forward_three k (S n) x 0 (repeat 0 n) 0 c) as [v [t [E [Lv [_ [Q _]]]]]]; fold n; [lia|lia|rewrite repeat_length; lia|intros i Hi; apply Nc; auto|]. fold n in E. rewrite E. cbn [bind fst snd]. replace (for_range n) with (@for_range (list R) (length v)) by (f_equal; lia). rewrite double_loop. cbn [bind snd]. eexists. split; [reflexivity|]. split.
  - rewrite (nth_map_lt _ v 0 0) by (rewrite Lv, Lx; unfold n; lia). rewrite Q. ring.
  - unfold dct2. rewrite Lx. rewrite (sumf_ext _ (fun _ => c)) by (intros j Hj; rewrite Nc by auto; simpl (INR 0); rewrite Rmult_0_r, cos_0; ring). rewrite sumf_const. unfold n. rewrite mult_INR, pow_INR. simpl (INR 3). simpl (INR 2). replace (1 + 1) with 2 by ring. ring.
Qed.
Theorem C55_pffft_refuted : exists x X, p_dct x x = Ok X /\ nth 0 X 0 <> 2 * dct2 x 0 /\ length x = 96%nat.
Proof.
  destruct (C55_pffft_three 5 1 (repeat 1 96)) as [X [E [N Dx]]]; [lia|reflexivity|reflexivity|]. exists (repeat 1 (3 * 2 ^ 5)), X. split; [exact E|]. split; [|reflexivity]. rewrite N, Dx. lra.
Qed.

(** * C51: complex transforms agree with the FFTW back end *)
Theorem C51_pffft_cdft x dst : pffft_supported PComplex (Z.of_nat (length x)) = true -> (Z.of_nat (length x) < 2 ^ 31)%Z -> length dst = length x -> p_cdft x dst = cdft x /\ p_cidft x dst = cidft x.
Proof.
  intros SP B Ld. destruct (supported_16 _ _ SP) as [M P]. assert (F : fits (length x)) by (split; lia). set (n := length x) in *.
  assert (A : forall fw, pffft_run n (Some PComplex) fw (floats x) (floats dst) = Ok (floats (if fw then fftw_forward n x else fftw_backward n x))).
  { intros fw. unfold pffft_run. rewrite !floats_length, Ld. fold n. rewrite Nat.ltb_irrefl. cbn [orb]. rewrite complexes_floats, floats_skipn. rewrite <- Ld, skipn_all. destruct fw; cbn [floats flat_map]; rewrite app_nil_r; reflexivity. }
  split.
  - unfold p_cdft, cdft, zlen. fold n. rewrite new_pengine_ok, new_engine_ok, cdft_raw by auto. cbn [bind snd]. unfold pe_cdft. rewrite setup_new, ppoints_ok, A by auto. cbn [bind snd]. rewrite complexes_floats. reflexivity.
  - unfold p_cidft, cidft, zlen. fold n. rewrite new_pengine_ok, new_engine_ok, cidft_raw by auto. cbn [bind fst snd]. unfold pe_cidft. rewrite setup_new, ppoints_ok, A by auto. cbn [bind fst snd]. rewrite complexes_floats. reflexivity.
Qed.
Theorem C54_pffft_hilbert x : pffft_supported PComplex (Z.of_nat (length x)) = true -> (Z.of_nat (length x) < 2 ^ 31)%Z -> p_hilbert x = hilbert x.
Proof.
  intros SP B. destruct (supported_16 _ _ SP) as [M P]. assert (F : fits (length x)) by (split; lia). set (n := length x) in *.
  assert (A : forall fw y, length y = n -> pffft_run n (Some PComplex) fw (floats y) (floats (repeat C0 n)) = Ok (floats (if fw then fftw_forward n y else fftw_backward n y))).
  { intros fw y Ly. unfold pffft_run. rewrite !floats_length, repeat_length, Ly. rewrite Nat.ltb_irrefl. cbn [orb]. rewrite complexes_floats, floats_skipn. rewrite skipn_all2 by (rewrite repeat_length; auto). destruct fw; cbn [floats flat_map]; rewrite app_nil_r; reflexivity. }
  unfold p_hilbert, hilbert, zlen. fold n. rewrite !new_pengine_ok, new_engine_ok by auto. cbn [bind]. rewrite cdft_raw by (auto; rewrite map_length; auto). cbn [bind fst snd]. unfold pe_cdft. rewrite setup_new, ppoints_ok, A by (auto; rewrite map_length; auto). cbn [bind fst snd]. rewrite complexes_floats.
  assert (L : length (indexed (hilbert_mask n) (fftw_forward n (map RtoC x))) = n) by (rewrite indexed_length, forward_tab, map_length, seq_length; auto).
  rewrite cidft_raw by (auto; rewrite L; auto). cbn [bind fst snd]. unfold pe_cidft. rewrite setup_new, ppoints_ok, A by auto. cbn [bind fst snd]. rewrite complexes_floats. reflexivity.
Qed.
(** VIOLATION: the real transform packs the last value into the first and leaves the last cell alone. *)
Lemma real_forward n x : (0 < n)%nat -> length x = n -> pffft_real_forward n (firstn n x) = pack n (rfourier x).
Proof.
  intros P L. unfold pffft_real_forward. rewrite (firstn_all2 x) by lia. unfold pack.
  assert (A : forall k, (k < n)%nat -> nth k (fftw_forward n (map RtoC x)) C0 = rfourier x k).
  { intros k K. rewrite forward_tab, nth_map_seq by auto. unfold rfourier. rewrite L, <- DFT_fourier. apply DFT_ext. intros j _. change C0 with (RtoC 0). apply map_nth. }
  assert (n / 2 < n)%nat by (apply Nat.div_lt; lia). rewrite !A by lia. do 2 f_equal. f_equal. apply map_tab_ext. intros i Hi. apply A. lia.
Qed.
Lemma complexes_pack n X tl : complexes (pack n X ++ floats tl) = (Re (X 0%nat), Re (X (n / 2)%nat)) :: map (fun i => X (S i)) (seq 0 (n / 2 - 1)) ++ tl.
Proof. unfold pack. cbn [app complexes]. rewrite <- floats_app, complexes_floats. reflexivity. Qed.
Lemma pack_length n X : (2 <= n)%nat -> Nat.even n = true -> length (pack n X) = n.
Proof. intros H E. apply Nat.even_spec in E. destruct E as [h ->]. unfold pack. cbn [length]. rewrite floats_length, map_length, seq_length. replace (2 * h / 2)%nat with h by (symmetry; rewrite Nat.mul_comm; apply Nat.div_mul; lia). lia. Qed.
Lemma real_run x dst : pffft_supported PReal (Z.of_nat (length x)) = true -> (length x / 2 <= length dst)%nat ->
  pffft_run (length x) (Some PReal) true x (floats dst) = Ok (pack (length x) (rfourier x) ++ floats (skipn (length x / 2) dst)).
Proof.
  intros SP Ld. destruct (supported_32 _ SP) as [q [Q Q0]]. unfold pffft_run. rewrite Nat.ltb_irrefl, floats_length. assert (D2 : (length x / 2 = 16 * q)%nat) by (rewrite Q; replace (32 * q)%nat with (16 * q * 2)%nat by lia; apply Nat.div_mul; lia).
  destruct (Nat.ltb_spec (2 * length dst) (length x)); [lia|]. cbn [orb]. rewrite real_forward by (auto; lia). do 2 f_equal. rewrite <- floats_skipn. f_equal. lia.
Qed.
Theorem C51_pffft_dft_actual x dst : pffft_supported PReal (Z.of_nat (length x)) = true -> (Z.of_nat (length x) < 2 ^ 31)%Z -> (length x / 2 <= length dst)%nat ->
  exists H, p_dft x dst = Ok H /\ length H = length dst /\
    nth 0 H C0 = (Re (rfourier x 0), Re (rfourier x (length x / 2))) /\
    (forall k, (0 < k < length x / 2)%nat -> nth k H C0 = rfourier x k) /\ (forall k, (length x / 2 <= k)%nat -> nth k H C0 = nth k dst C0).
Proof.
  intros SP B Ld. destruct (supported_16 _ _ SP) as [M P]. destruct (supported_32 _ SP) as [q [Q Q0]]. unfold p_dft, zlen. rewrite new_pengine_ok by auto. cbn [bind]. unfold pe_dft. rewrite setup_new, ppoints_ok, real_run by auto. cbn [bind snd]. rewrite complexes_pack. eexists. split; [reflexivity|].
  assert (D2 : (length x / 2 = 16 * q)%nat) by (rewrite Q; replace (32 * q)%nat with (16 * q * 2)%nat by lia; apply Nat.div_mul; lia). rewrite D2 in *.
  split; [cbn [length]; rewrite app_length, map_length, seq_length, skipn_length; lia|]. split; [reflexivity|]. split.
  - intros k K. destruct k as [|k]; [lia|]. cbn [nth]. rewrite app_nth1 by (rewrite map_length, seq_length; lia). rewrite nth_map_seq by lia. reflexivity.
  - intros k K. destruct k as [|k]; [lia|]. cbn [nth]. rewrite app_nth2 by (rewrite map_length, seq_length; lia). rewrite map_length, seq_length. replace (k - (16 * q - 1))%nat with (S k - 16 * q)%nat by lia. rewrite <- (firstn_skipn (16 * q) dst) at 2. rewrite app_nth2 by (rewrite firstn_length; lia). rewrite firstn_length. f_equal. lia.
Qed.
Definition impulse (n : nat) : list R := 1 :: repeat 0 (n - 1).
Lemma impulse_spectrum n k : (0 < n)%nat -> rfourier (impulse n) k = C1.
Proof.
  intros P. unfold rfourier, impulse. cbn [length]. rewrite repeat_length. replace (S (n - 1)) with n by lia. rewrite <- DFT_fourier. unfold DFT. rewrite (csumf_single _ n 0 P).
  - cbn [nth]. rewrite Z.mul_0_l. cbn [Z.opp]. rewrite tw_0. apply C_eq; cbn; ring.
  - intros j J N. destruct j as [|j]; [lia|]. cbn [nth]. rewrite nth_repeat. apply C_eq; cbn; ring.
Qed.
Theorem C51_pffft_dft_refuted : exists x H, length x = 32%nat /\ p_dft x (repeat C0 17) = Ok H /\ nth 0 H C0 <> rfourier x 0 /\ nth 16 H C0 <> rfourier x 16.
Proof.
  destruct (C51_pffft_dft_actual (impulse 32) (repeat C0 17)) as [H [E [_ [H0 [_ HL]]]]]; [reflexivity|reflexivity|cbn; lia|]. exists (impulse 32), H. split; [reflexivity|]. split; [exact E|]. split.
  - rewrite H0, !impulse_spectrum by lia. intros A. injection A. cbn. lra.
  - rewrite HL by (cbn; lia). rewrite impulse_spectrum by lia. change (nth 16 (repeat C0 17) C0) with C0. intros A. injection A. lra.
Qed.
(** The packed form still inverts: idft after dft gives the signal back. *)
Lemma unpack_pack n X s : (2 <= n)%nat -> Nat.even n = true -> hermitian_sym n X -> (forall k, (k < n)%nat -> nth k s 0 = nth k (pack n X) 0) -> Im (X (n / 2)%nat) = 0 ->
  forall k, (k < n)%nat -> unpack n s k = X k.
Proof.
  intros P E [S0 S1] H HI k K. apply Nat.even_spec in E. destruct E as [h Hh]. assert (D2 : (n / 2 = h)%nat) by (rewrite Hh, Nat.mul_comm; apply Nat.div_mul; lia). unfold pack in H. rewrite D2 in *. unfold unpack.
  assert (G : forall i, (0 < i < h)%nat -> (nth (2 * i) s 0, nth (2 * i + 1) s 0) = X i).
  { intros i Hi. rewrite !H by lia. destruct i as [|i]; [lia|]. replace (2 * S i)%nat with (S (S (2 * i))) by lia. cbn [Nat.add nth]. destruct (nth_floats (map (fun i => X (S i)) (seq 0 (h - 1))) i) as [A B]; [rewrite map_length, seq_length; lia|]. rewrite A, B, nth_map_seq by lia. destruct (X (S i)); reflexivity. }
  destruct (Nat.eqb_spec k 0) as [->|K0]; [rewrite H by lia; cbn [nth]; apply C_eq; cbn; auto; apply (f_equal Im) in S0; cbn in S0; unfold Im in *; lra|].
  destruct (Nat.eqb_spec (2 * k) n) as [K2|K2]; [rewrite H by lia; assert (k = h) by lia; subst k; cbn [nth]; apply C_eq; cbn; auto|].
  destruct (Nat.ltb_spec (2 * k) n); [apply G; lia|]. rewrite G by lia. rewrite S1, Cconj_invol by lia. reflexivity.
Qed.
Lemma Im_nyquist x h : (0 < h)%nat -> length x = (2 * h)%nat -> Im (rfourier x h) = 0.
Proof.
  intros H L. pose proof (C51_hermitian x h ltac:(lia) ltac:(lia)) as E. rewrite L in E. replace (2 * h - h)%nat with h in E by lia. apply (f_equal Im) in E. cbn in E. lra.
Qed.
Lemma real_sym' x : (0 < length x)%nat -> hermitian_sym (length x) (rfourier x).
Proof.
  intros H. destruct (real_sym (length x) (fun j => nth j x 0) H) as [A B]. unfold rfourier. split; [rewrite <- DFT_fourier; auto|]. intros k K. rewrite <- !DFT_fourier. apply B. auto.
Qed.
Lemma back_run n s d X : (2 <= n)%nat -> Nat.even n = true -> hermitian_sym n X -> Im (X (n / 2)%nat) = 0 -> (n <= length s)%nat -> length d = n -> (forall k, (k < n)%nat -> nth k s 0 = nth k (pack n X) 0) ->
  pffft_run n (Some PReal) false s d = Ok (map (fun m => Re (IDFT n X m)) (seq 0 n)).
Proof.
  intros P E SX HI Ls Ld H. unfold pffft_run. destruct (Nat.ltb_spec (length s) n); [lia|]. rewrite Ld, Nat.ltb_irrefl. cbn [orb]. rewrite <- Ld at 2. rewrite skipn_all, app_nil_r. f_equal. unfold pffft_real_backward. rewrite backward_tab, map_map. apply map_tab_ext. intros m M. f_equal. apply IDFT_ext. intros k K. rewrite nth_map_seq by auto. eapply unpack_pack; eauto.
Qed.
Theorem C51_pffft_real_round_trip x dst H y : pffft_supported PReal (Z.of_nat (length x)) = true -> (Z.of_nat (length x) < 2 ^ 31)%Z -> length dst = (length x / 2 + 1)%nat -> length y = length x ->
  p_dft x dst = Ok H -> p_idft H y = Ok x.
Proof.
  intros SP B Ld Ly E. destruct (supported_16 _ _ SP) as [M P]. destruct (supported_32 _ SP) as [q [Q Q0]]. assert (F : fits (length x)) by (split; lia). assert (D2 : (length x / 2 = 16 * q)%nat) by (rewrite Q; replace (32 * q)%nat with (16 * q * 2)%nat by lia; apply Nat.div_mul; lia).
  unfold p_dft, zlen in E. rewrite new_pengine_ok in E by auto. cbn [bind] in E. unfold pe_dft in E. rewrite setup_new, ppoints_ok, real_run in E by (auto; lia). cbn [bind snd] in E. match type of E with Ok ?a = Ok ?b => assert (E1 : a = b) by congruence end. clear E. rename E1 into E.
  assert (EF : floats H = pack (length x) (rfourier x) ++ floats (skipn (length x / 2) dst)). { rewrite <- E, complexes_pack. unfold pack. cbn [floats flat_map app Re Im fst snd]. rewrite flat_map_app. reflexivity. }
  assert (LP : length (pack (length x) (rfourier x)) = length x) by (apply pack_length; [lia|rewrite Q; apply Nat.even_spec; exists (16 * q)%nat; lia]).
  assert (LH : length H = (length x / 2 + 1)%nat). { assert (A : length (floats H) = (2 * (length x / 2 + 1))%nat) by (rewrite EF, app_length, LP, floats_length, skipn_length; lia). rewrite floats_length in A. lia. }
  unfold p_idft, make_ifft_size. rewrite LH. replace (2 * (Z.of_nat (length x / 2 + 1) - 1))%Z with (Z.of_nat (length x)) by lia. rewrite new_pengine_ok by auto. cbn [bind]. unfold pe_idft. rewrite setup_new, ppoints_ok by auto.
  rewrite (back_run (length x) (floats H) y (rfourier x)).
  - cbn [bind fst snd]. unfold as_engine. cbn [psize]. rewrite idft_scale_ok by (auto; rewrite map_length, seq_length; auto). f_equal. rewrite map_map. transitivity (map (fun j => nth j x 0) (seq 0 (length x))); [|symmetry; apply list_tab]. apply map_tab_ext. intros m Hm.
    rewrite (IDFT_ext _ _ (DFT (length x) (fun j => RtoC (nth j x 0)))) by (intros k K; symmetry; apply DFT_fourier). rewrite IDFT_DFT by auto. cbn. destruct F as [P0 _]. pose proof (INR_neq0 _ P0). field. auto.
  - lia.
  - rewrite Q. apply Nat.even_spec. exists (16 * q)%nat. lia.
  - apply real_sym'. lia.
  - apply Im_nyquist; lia.
  - rewrite floats_length. lia.
  - auto.
  - intros k K. rewrite EF, app_nth1 by lia. reflexivity.
Qed.
Example C51_pffft_ex : pffft_supported PReal 96 = true /\ pffft_supported PComplex 48 = true /\ pffft_supported PReal 48 = false /\ pffft_supported PReal 224 = false. Proof. repeat split. Qed.

(** * C80, C81 *)
Theorem C80_pffft_spectrum_actual x : pffft_supported PReal (Z.of_nat (length x)) = true -> (Z.of_nat (length x) < 2 ^ 31)%Z ->
  exists s, p_spectrum x = Ok s /\ length s = (length x / 2 + 1)%nat /\
    nth 0 s 0 = (Re (rfourier x 0)) ^ 2 + (Re (rfourier x (length x / 2))) ^ 2 /\ (forall k, (0 < k < length x / 2)%nat -> nth k s 0 = Cnorm2 (rfourier x k)) /\ nth (length x / 2) s 0 = 0.
Proof.
  intros SP B. destruct (supported_16 _ _ SP) as [M P]. destruct (C51_pffft_dft_actual x (repeat C0 (length x / 2 + 1)) SP B) as [H [E [L [H0 [HK HL]]]]]; [rewrite repeat_length; lia|]. rewrite repeat_length in L.
  unfold p_spectrum, make_fft_size. rewrite nonempty_match by lia. rewrite E. cbn [bind]. eexists. split; [reflexivity|]. rewrite map_length. split; auto.
  assert (A : forall k, (k < length H)%nat -> nth k (map (fun z => Cmod z * Cmod z) H) 0 = Cnorm2 (nth k H C0)) by (intros k K; rewrite (nth_map_lt _ H k C0) by auto; apply Cmod_sqr).
  split; [rewrite A, H0 by lia; unfold Cnorm2; cbn; ring|]. split; [intros k K; rewrite A, HK by lia; reflexivity|]. rewrite A, HL by lia. rewrite nth_repeat. unfold Cnorm2. cbn. ring.
Qed.
(** An empty signal has no spectrum: its first sample is dereferenced. *)
Theorem C80_pffft_empty : p_spectrum [] = UB.
Proof. reflexivity. Qed.
Theorem C80_pffft_refuted : exists x s, p_spectrum x = Ok s /\ nth 16 s 0 <> Cnorm2 (rfourier x 16) /\ length x = 32%nat.
Proof.
  destruct (C80_pffft_spectrum_actual (impulse 32)) as [s [E [_ [_ [_ N]]]]]; [reflexivity|reflexivity|]. exists (impulse 32), s. split; auto. split; [|reflexivity]. change (length (impulse 32) / 2)%nat with 16%nat in N. rewrite N, impulse_spectrum by lia. unfold Cnorm2. cbn. lra.
Qed.
(** VIOLATION: the first sample is left out of every output. *)
Theorem C81_pffft_actual x dst : (0 < length x)%nat -> (Z.of_nat (length x) mod 16 = 0)%Z -> (Z.of_nat (length x) < 2 ^ 31)%Z -> length dst = length x ->
  exists H, p_hartley x dst = Ok H /\ tabulates H (length x) (fun k => hartley_at x k - nth 0 x 0).
Proof.
  intros P M B Ld. unfold p_hartley, zlen. rewrite new_pengine_ok by auto. cbn [bind]. unfold pe_dht, useless_dht. rewrite ppoints_ok. set (n := length x) in *.
  destruct (for_range_inv (fun i d => length d = n /\ forall k, (k < i)%nat -> nth k d 0 = hartley_at x k - nth 0 x 0) n (fun k d =>
    d0 <- store d k 0 ;; for_range (n - 1) (fun j0 d' => let j := S j0 in x0 <- load x j ;; y <- load d' k ;; store d' k (y + x0 * (cos (2 * PI * INR j * INR k / INR n) + sin (2 * PI * INR j * INR k / INR n)))) d0) dst) as [H [E [L T]]].
  - split; auto. intros; lia.
  - intros k d K [L T]. destruct (store_nth d k 0) as [d0 [E0 [L0 [_ [N0 O0]]]]]; [lia|]. rewrite E0. cbn [bind].
    destruct (for_range_inv (fun i d' => length d' = n /\ (forall j, j <> k -> nth j d' 0 = nth j d 0) /\ nth k d' 0 = sumf (fun j => nth (S j) x 0 * (cos (2 * PI * INR (S j) * INR k / INR n) + sin (2 * PI * INR (S j) * INR k / INR n))) i) (n - 1)
      (fun j0 d' => let j := S j0 in x0 <- load x j ;; y <- load d' k ;; store d' k (y + x0 * (cos (2 * PI * INR j * INR k / INR n) + sin (2 * PI * INR j * INR k / INR n)))) d0) as [d1 [E1 [L1 [O1 N1]]]].
    + split; [lia|]. split; [intros; apply O0; auto|]. rewrite N0. reflexivity.
    + intros i s Hi [Ls [Os Ns]]. cbv zeta. rewrite (load_nth x (S i) 0) by (fold n; lia). cbn [bind]. rewrite (load_nth s k 0) by lia. cbn [bind]. match goal with |- context [store s ?a ?b] => destruct (store_nth s a b) as [s1 [Es [Ls1 [_ [Ns1 Os1]]]]]; [lia|] end. exists s1. split; auto. split; [lia|]. split; [intros j J; rewrite Os1 by auto; apply Os; auto|]. rewrite Ns1, Ns. reflexivity.
    + exists d1. split; auto. split; auto. intros j J. destruct (Nat.eq_dec j k) as [->|N]; [|rewrite O1 by auto; apply T; lia]. rewrite N1. unfold hartley_at. fold n. assert (EN : forall f, sumf f n = sumf f (S (n - 1))) by (intros; f_equal; lia). rewrite EN, sumf_S_l. unfold cas at 1. simpl (INR 0). replace (2 * PI / INR n * 0 * INR k) with 0 by ring. rewrite cos_0, sin_0.
      rewrite (sumf_ext (fun i => nth (S i) x 0 * cas (2 * PI / INR n * INR (S i) * INR k)) (fun j => nth (S j) x 0 * (cos (2 * PI * INR (S j) * INR k / INR n) + sin (2 * PI * INR (S j) * INR k / INR n)))); [ring|]. intros i Hi. unfold cas. replace (2 * PI / INR n * INR (S i) * INR k) with (2 * PI * INR (S i) * INR k / INR n) by (unfold Rdiv; ring). reflexivity.
  - match type of E with ?lhs = _ => match goal with |- context [for_range n ?g dst] => change (for_range n g dst) with lhs end end. rewrite E. cbn [bind snd]. eexists. split; [reflexivity|]. split; auto. intros k d K. rewrite (nth_indep _ d 0) by lia. auto.
Qed.
Theorem C81_pffft_refuted : exists x H, p_hartley x x = Ok H /\ nth 0 H 0 <> hartley_at x 0.
Proof.
  destruct (C81_pffft_actual (impulse 16) (impulse 16)) as [H [E [_ T]]]; [cbn; lia|reflexivity|reflexivity|reflexivity|]. exists (impulse 16), H. split; auto. rewrite T by (cbn; lia). cbn [impulse nth]. lra.
Qed.

(** * C52: convolution with packed spectra *)
Definition total (x : list R) : R := sumf (fun j => nth j x 0) (length x).
Definition alternating (x : list R) : R := sumf (fun j => (-1) ^ j * nth j x 0) (length x).
Lemma rf0 x : rfourier x 0 = RtoC (total x).
Proof.
  unfold rfourier, total. rewrite <- DFT_fourier. unfold DFT. rewrite RtoC_sumf. apply csumf_ext. intros j _. rewrite Z.mul_0_r. cbn [Z.opp]. rewrite tw_0. ring.
Qed.
Lemma tw_nyquist h j : (0 < h)%nat -> tw (2 * h) (- (Z.of_nat j * Z.of_nat h)) = RtoC ((-1) ^ j).
Proof.
  intros H. unfold tw. replace (2 * PI * IZR (- (Z.of_nat j * Z.of_nat h)) / INR (2 * h)) with (PI * IZR (- Z.of_nat j)).
  - unfold Cexp. rewrite cos_PI_Z, sin_PI_Z. unfold RtoC. f_equal. rewrite Z.even_opp. induction j as [|j IH]; [reflexivity|]. rewrite Nat2Z.inj_succ, Z.even_succ, <- Z.negb_even. cbn [pow]. rewrite <- IH. destruct (Z.even (Z.of_nat j)); cbn [negb]; ring.
  - rewrite !opp_IZR, mult_IZR, <- !INR_IZR_INZ, mult_INR. simpl (INR 2). pose proof (INR_neq0 h H). field. auto.
Qed.
Lemma rfh x h : (0 < h)%nat -> length x = (2 * h)%nat -> rfourier x h = RtoC (alternating x).
Proof.
  intros H L. unfold rfourier, alternating. rewrite L, <- DFT_fourier. unfold DFT. rewrite RtoC_sumf. apply csumf_ext. intros j _. rewrite tw_nyquist by auto. apply C_eq; cbn; ring.
Qed.
Lemma rfourier_pad N x k : (N <= length x)%nat -> (0 < N)%nat -> rfourier (firstn N x ++ repeat 0 N) k = DFT (2 * N) (fun j => RtoC (if (j <? N)%nat then nth j x 0 else 0)) k.
Proof. intros L P. unfold rfourier. rewrite app_length, firstn_length, repeat_length. replace (Nat.min N (length x) + N)%nat with (2 * N)%nat by lia. rewrite <- DFT_fourier. apply DFT_ext. intros j _. rewrite nth_padded by auto. reflexivity. Qed.
Lemma sum_padded (g : nat -> R) N x : (N <= length x)%nat -> sumf (fun j => g j * nth j (firstn N x ++ repeat 0 N) 0) (length (firstn N x ++ repeat 0 N)) = sumf (fun j => g j * nth j x 0) N.
Proof.
  intros L. rewrite app_length, firstn_length, repeat_length. replace (Nat.min N (length x)) with N by lia. rewrite sumf_app. rewrite (sumf_ext (fun i => g (N + i)%nat * _) (fun _ => 0)).
  - rewrite sumf_zero, Rplus_0_r. apply sumf_ext. intros j J. rewrite nth_padded by auto. destruct (Nat.ltb_spec j N); [reflexivity|lia].
  - intros i Hi. rewrite nth_padded by auto. destruct (Nat.ltb_spec (N + i) N); [lia|ring].
Qed.
(** VIOLATION: every output sample is off by a term built from the sums and the alternating sums. *)
Theorem C52_pffft_actual x y : pffft_supported PReal (2 * Z.of_nat (length x)) = true -> length y = length x -> (2 * Z.of_nat (length x) < 2 ^ 31)%Z ->
  exists out, p_conv x y = Ok out /\ tabulates out (length x) (fun m => linear_convolution x y m +
    (- (alternating x * alternating y) + (-1) ^ m * (total x * alternating y + alternating x * total y - alternating x * alternating y)) / (2 * INR (length x))).
Proof.
  intros SP Ly B. set (N := length x) in *. replace (2 * Z.of_nat N)%Z with (Z.of_nat (2 * N)) in * by lia. destruct (supported_16 _ _ SP) as [M P]. destruct (supported_32 _ SP) as [q [Q Q0]]. assert (F : fits (2 * N)) by (split; lia).
  assert (D2 : (2 * N / 2 = N)%nat) by (rewrite Nat.mul_comm; apply Nat.div_mul; lia).
  unfold p_conv. rewrite nonempty_match by (fold N; lia). cbv zeta. fold N. replace (2 * Z.of_nat N)%Z with (Z.of_nat (2 * N)) by lia. rewrite new_pengine_ok by (auto; lia). cbn [bind]. rewrite !padded_ok by lia. cbn [bind].
  set (px := firstn N x ++ repeat 0 N). set (py := firstn N y ++ repeat 0 N). assert (Lpx : length px = (2 * N)%nat) by (unfold px; rewrite app_length, firstn_length, repeat_length; lia). assert (Lpy : length py = (2 * N)%nat) by (unfold py; rewrite app_length, firstn_length, repeat_length; lia).
  unfold make_fft_size. rewrite D2.
  assert (R1 : forall p0, setup_for (mkPengine (Z.of_nat (2 * N)) p0) PReal = Some PReal -> forall z, length z = (2 * N)%nat -> pe_dft (mkPengine (Z.of_nat (2 * N)) p0) z (repeat C0 (N + 1)) = Ok (mkPengine (Z.of_nat (2 * N)) (Some PReal), (Re (rfourier z 0), Re (rfourier z N)) :: map (fun i => rfourier z (S i)) (seq 0 (N - 1)) ++ [C0])).
  { intros p0 Sp z Lz. unfold pe_dft. rewrite Sp, ppoints_ok. cbn [psize]. rewrite <- Lz at 1. rewrite real_run by (rewrite Lz; auto; rewrite repeat_length; lia). cbn [bind]. rewrite Lz, D2. do 2 f_equal. rewrite complexes_pack, D2. replace (skipn N (repeat C0 (N + 1))) with [C0]; [reflexivity|]. rewrite repeat_app, skipn_app, repeat_length, Nat.sub_diag. rewrite skipn_all2 by (rewrite repeat_length; auto). reflexivity. }
  rewrite R1 by (auto using setup_new). cbn [bind fst snd]. rewrite R1 by (auto; reflexivity). cbn [bind fst snd].
  set (PX := rfourier px). set (PY := rfourier py). set (W := fun k => if (k =? 0)%nat then RtoC (Re (PX 0%nat) * Re (PY 0%nat) - Re (PX N) * Re (PY N)) else if (k =? N)%nat then RtoC (Re (PX 0%nat) * Re (PY N) + Re (PX N) * Re (PY 0%nat)) else Cmul (PX k) (PY k)).
  assert (SX : hermitian_sym (2 * N) PX) by (unfold PX; rewrite <- Lpx; apply real_sym'; lia). assert (SY : hermitian_sym (2 * N) PY) by (unfold PY; rewrite <- Lpy; apply real_sym'; lia).
  assert (ZW : zip_with Cmul ((Re (PX 0%nat), Re (PX N)) :: map (fun i => PX (S i)) (seq 0 (N - 1)) ++ [C0]) ((Re (PY 0%nat), Re (PY N)) :: map (fun i => PY (S i)) (seq 0 (N - 1)) ++ [C0]) = (Re (W 0%nat), Re (W N)) :: map (fun i => W (S i)) (seq 0 (N - 1)) ++ [C0]).
  { cbn [zip_with]. f_equal.
    - unfold W. cbn [Nat.eqb]. destruct (Nat.eqb_spec N 0); [lia|]. rewrite Nat.eqb_refl. apply C_eq; cbn; ring.
    - assert (ZA : forall a b c d, length a = length c -> zip_with Cmul (a ++ b) (c ++ d) = zip_with Cmul a c ++ zip_with Cmul b d) by (induction a as [|u a IH]; intros b [|w c] d L; cbn in *; try lia; auto; f_equal; apply IH; lia).
      rewrite ZA by (rewrite !map_length; auto). rewrite zip_tab. f_equal; [|cbn; f_equal; apply C_eq; cbn; ring]. apply map_tab_ext. intros i Hi. unfold W. destruct (Nat.eqb_spec (S i) 0); [lia|]. destruct (Nat.eqb_spec (S i) N); [lia|reflexivity]. }
  rewrite ZW. clear ZW.
  assert (SW : hermitian_sym (2 * N) W).
  { destruct (mul_sym _ _ _ SX SY) as [_ SM]. split; [unfold W; cbn [Nat.eqb]; apply C_eq; cbn; ring|]. intros k K. unfold W. destruct (Nat.eqb_spec k 0); [lia|]. destruct (Nat.eqb_spec (2 * N - k) 0); [lia|]. destruct (Nat.eqb_spec (2 * N - k) N); destruct (Nat.eqb_spec k N); try lia; [apply C_eq; cbn; ring|]. apply SM. auto. }
  assert (EV : Nat.even (2 * N) = true) by (apply Nat.even_spec; exists N; auto).
  unfold pe_idft. rewrite setup_new, ppoints_ok by auto. rewrite (back_run (2 * N) _ _ W); auto; [|lia|rewrite D2; unfold W; destruct (Nat.eqb_spec N 0); [lia|]; rewrite Nat.eqb_refl; reflexivity| | |].
  - cbn [bind fst snd]. unfold as_engine. cbn [psize]. rewrite idft_scale_ok by (auto; rewrite map_length, seq_length; auto). cbn [bind]. rewrite map_map, firstn_tab by lia. eexists. split; [reflexivity|]. split; [rewrite map_length, seq_length; auto|]. intros m d Hm. rewrite nth_map_seq by auto.
    assert (Sp : forall k, (k < 2 * N)%nat -> W k = Cadd (Cmul (PX k) (PY k)) (Cadd (if (k =? 0)%nat then RtoC (- (alternating px * alternating py)) else C0) (if (k =? N)%nat then RtoC (total px * alternating py + alternating px * total py - alternating px * alternating py) else C0))).
    { intros k K. unfold W, PX, PY. destruct (Nat.eqb_spec k 0) as [->|K0].
      - destruct (Nat.eqb_spec 0 N); [lia|]. rewrite (rf0 px), (rf0 py), (rfh px N), (rfh py N) by (auto; lia). apply C_eq; cbn; ring.
      - destruct (Nat.eqb_spec k N) as [->|KN]; [|apply C_eq; cbn; ring]. rewrite (rf0 px), (rf0 py), (rfh px N), (rfh py N) by (auto; lia). apply C_eq; cbn; ring. }
    rewrite (IDFT_ext _ _ _ _ Sp), !IDFT_plus.
    assert (E0 : IDFT (2 * N) (fun k => if (k =? 0)%nat then RtoC (- (alternating px * alternating py)) else C0) m = RtoC (- (alternating px * alternating py))).
    { unfold IDFT. rewrite (csumf_single _ (2 * N) 0%nat); [|lia|intros k K K0; destruct (Nat.eqb_spec k 0); [contradiction|ring]]. cbn [Nat.eqb]. rewrite Z.mul_0_l, tw_0. ring. }
    assert (EH : forall z, IDFT (2 * N) (fun k => if (k =? N)%nat then RtoC z else C0) m = RtoC ((-1) ^ m * z)).
    { intros z. unfold IDFT. rewrite (csumf_single _ (2 * N) N); [|lia|intros k K K0; destruct (Nat.eqb_spec k N); [contradiction|ring]]. rewrite Nat.eqb_refl. replace (tw (2 * N) (Z.of_nat N * Z.of_nat m)) with (RtoC ((-1) ^ m)); [apply C_eq; cbn; ring|]. replace (Z.of_nat N * Z.of_nat m)%Z with (- - (Z.of_nat m * Z.of_nat N))%Z by ring. rewrite <- tw_conj, tw_nyquist by lia. apply C_eq; cbn; ring. }
    rewrite E0, EH.
    assert (EC : IDFT (2 * N) (fun k => Cmul (PX k) (PY k)) m = IDFT (2 * N) (fun k => Cmul (DFT (2 * N) (fun j => RtoC (if (j <? N)%nat then nth j x 0 else 0)) k) (DFT (2 * N) (fun j => RtoC (if (j <? N)%nat then nth j y 0 else 0)) k)) m) by (apply IDFT_ext; intros k K; unfold PX, PY, px, py; rewrite !rfourier_pad by lia; reflexivity). rewrite EC.
    pose proof (pad_conv N (fun j => nth j x 0) (fun j => nth j y 0) m ltac:(lia) Hm) as PC. cbv zeta in PC. cbn [Cadd Re fst RtoC snd]. unfold Re in *. rewrite PC.
    assert (TA : total px = total x /\ total py = total y /\ alternating px = alternating x /\ alternating py = alternating y).
    { unfold total, alternating. fold N. rewrite Ly. unfold px, py. rewrite !sum_padded by lia. repeat split; auto.
      - transitivity (sumf (fun j => 1 * nth j (firstn N x ++ repeat 0 N) 0) (length (firstn N x ++ repeat 0 N))); [apply sumf_ext; intros; ring|]. rewrite (sum_padded (fun _ => 1)) by lia. apply sumf_ext; intros; ring.
      - transitivity (sumf (fun j => 1 * nth j (firstn N y ++ repeat 0 N) 0) (length (firstn N y ++ repeat 0 N))); [apply sumf_ext; intros; ring|]. rewrite (sum_padded (fun _ => 1)) by lia. apply sumf_ext; intros; ring. }
    destruct TA as [-> [-> [-> ->]]]. unfold linear_convolution. rewrite mult_INR. simpl (INR 2). pose proof (INR_neq0 N ltac:(lia)). field. auto.
  - rewrite floats_length. cbn [length]. rewrite app_length, map_length, seq_length. cbn [length]. lia.
  - rewrite repeat_length. reflexivity.
  - intros k K. assert (EF : floats ((Re (W 0%nat), Re (W N)) :: map (fun i => W (S i)) (seq 0 (N - 1)) ++ [C0]) = pack (2 * N) W ++ floats [C0]) by (unfold pack; rewrite D2; cbn [floats flat_map app Re Im fst snd]; rewrite flat_map_app; reflexivity). rewrite EF, app_nth1 by (rewrite pack_length; auto; lia). reflexivity.
Qed.
Theorem C52_pffft_refuted : exists x out, p_conv x x = Ok out /\ nth 1 out 0 <> linear_convolution x x 1 /\ length x = 16%nat.
Proof.
  destruct (C52_pffft_actual (impulse 16) (impulse 16)) as [out [E [_ T]]]; [reflexivity|reflexivity|reflexivity|]. exists (impulse 16), out. split; auto. split; [|reflexivity]. rewrite T by (cbn; lia). unfold total, alternating. change (length (impulse 16)) with 16%nat. unfold impulse. cbn [Nat.sub repeat sumf nth pow]. simpl (INR 16). intros A. field_simplify in A. lra.
Qed.

(** * C56: the plan cache *)
(** The kind of setup a call needs. *)
Definition needs (c : pcall) : option pffft_kind :=
  match c with PCallDft _ _ | PCallIdft _ _ => Some PComplex | PCallRDft _ _ | PCallRIdft _ _ | PCallDct _ _ => Some PReal | PCallDht _ _ | PCallIdct _ _ => None end.
(** The kind needed by the first call that needs one. *)
Fixpoint first_need (h : list pcall) : option pffft_kind :=
  match h with [] => None | c :: t => match needs c with Some k => Some k | None => first_need t end end.
Definition presult (r : res (pengine * (list C + list R))) : res (list C + list R) := rmap snd r.
Lemma run_pcall_state e c e' out : run_pcall e c = Ok (e', out) -> e' = mkPengine (psize e) (match psetup e with Some p => Some p | None => needs c end).
Proof.
  assert (S : forall k r, (match setup_for e k with None => UB | Some _ => r end) = Ok (e', out) -> setup_for e k = match psetup e with Some p => Some p | None => Some k end) by (intros k r; unfold setup_for; destruct (psetup e); auto; destruct (pffft_supported k (psize e)); [auto|discriminate]).
  intros E. destruct c as [x d|x d|x d|x d|x d|x d|x d]; cbn [run_pcall needs] in *.
  - unfold pe_cdft in E. unfold setup_for in E. destruct (psetup e) as [p|]; [|destruct (pffft_supported PComplex (psize e)); [|discriminate]]; match type of E with context [pffft_run ?a ?b ?c ?d ?f] => destruct (pffft_run a b c d f) end; try discriminate; cbn [bind fst snd] in E; injection E as <- _; reflexivity.
  - unfold pe_cidft in E. unfold setup_for in E. destruct (psetup e) as [p|]; [|destruct (pffft_supported PComplex (psize e)); [|discriminate]]; match type of E with context [pffft_run ?a ?b ?c ?d ?f] => destruct (pffft_run a b c d f) end; try discriminate; cbn [bind fst snd] in E; injection E as <- _; reflexivity.
  - unfold pe_dft in E. unfold setup_for in E. destruct (psetup e) as [p|]; [|destruct (pffft_supported PReal (psize e)); [|discriminate]]; match type of E with context [pffft_run ?a ?b ?c ?d ?f] => destruct (pffft_run a b c d f) end; try discriminate; cbn [bind fst snd] in E; injection E as <- _; reflexivity.
  - unfold pe_idft in E. unfold setup_for in E. destruct (psetup e) as [p|]; [|destruct (pffft_supported PReal (psize e)); [|discriminate]]; match type of E with context [pffft_run ?a ?b ?c ?d ?f] => destruct (pffft_run a b c d f) end; try discriminate; cbn [bind fst snd] in E; injection E as <- _; reflexivity.
  - unfold pe_dht in E. destruct (useless_dht x d (ppoints e)); try discriminate. cbn [bind fst snd] in E. injection E as <- _. destruct e as [s [p|]]; reflexivity.
  - unfold pe_dct in E. unfold setup_for in E. destruct (psetup e) as [p|]; [|destruct (pffft_supported PReal (psize e)); [|discriminate]]; destruct (copy_front x d (ppoints e)); try discriminate; cbn [bind] in E; match type of E with context [lee_dct ?a ?b] => destruct (lee_dct a b) end; try discriminate; cbn [bind fst snd] in E; injection E as <- _; reflexivity.
  - unfold pe_idct in E. destruct (copy_front x d (ppoints e)); try discriminate; cbn [bind] in E; match type of E with context [lee_idct ?a ?b] => destruct (lee_idct a b) end; try discriminate; cbn [bind fst snd] in E. injection E as <- _. destruct e as [s [p|]]; reflexivity.
Qed.
Lemma run_pcalls_state h : forall e e', run_pcalls e h = Ok e' -> e' = mkPengine (psize e) (match psetup e with Some p => Some p | None => first_need h end).
Proof.
  induction h as [|c h IH]; intros e e' E; cbn [run_pcalls first_need] in *; [injection E as <-; destruct e as [s [p|]]; reflexivity|]. destruct (run_pcall e c) as [[e1 o1]| |] eqn:E1; try discriminate. cbn [bind fst] in E. apply run_pcall_state in E1. subst e1. apply IH in E. rewrite E. cbn [psize psetup]. destruct (psetup e); auto.
Qed.
Lemma fresh n e0 : new_pengine n = Ok e0 -> psetup e0 = None /\ (psize e0 mod 16 = 0)%Z.
Proof. unfold new_pengine. destruct (Z.eqb_spec (to_int32 n mod 16) 0); [|discriminate]. intros E. injection E as <-. auto. Qed.
(** A call is performed as on a fresh engine if it needs no setup or the kind the engine started with. *)
Theorem C56_pffft_one_kind n h c e e0 : new_pengine n = Ok e0 -> run_pcalls e0 h = Ok e ->
  needs c = None \/ first_need h = None \/ first_need h = needs c -> presult (run_pcall e c) = presult (run_pcall e0 c) \/ run_pcall e0 c = UB.
Proof.
  intros N E H. destruct (fresh n e0 N) as [P0 _]. apply run_pcalls_state in E. rewrite P0 in E. destruct e0 as [s p0]. cbn [psetup psize] in *. subst p0. destruct H as [H|[H|H]].
  - left. subst e. destruct c; try discriminate; cbn [run_pcall]; unfold pe_dht, pe_idct, ppoints; cbn [psize].
    + destruct (useless_dht x d (Z.to_nat s)); reflexivity.
    + destruct (copy_front x d (Z.to_nat s)); cbn [bind]; [|reflexivity|reflexivity]. destruct (lee_idct a (Z.to_nat s)); reflexivity.
  - rewrite H in E. subst e. auto.
  - rewrite H in E. subst e. destruct c; cbn [needs run_pcall]; unfold pe_cdft, pe_cidft, pe_dft, pe_idft, pe_dct, pe_dht, pe_idct, setup_for, ppoints; cbn [psize psetup]; try (left; reflexivity).
    1,2: destruct (pffft_supported PComplex s); [left; reflexivity|right; reflexivity].
    1,2,3: destruct (pffft_supported PReal s); [left; reflexivity|right; reflexivity].
Qed.
(** The cosine transform does not depend on the history. *)
Theorem C56_pffft_dct n h x d e e0 : new_pengine n = Ok e0 -> run_pcalls e0 h = Ok e -> pffft_supported PReal (psize e0) = true ->
  presult (run_pcall e (PCallDct x d)) = presult (run_pcall e0 (PCallDct x d)).
Proof.
  intros N E H. destruct (fresh n e0 N) as [P0 _]. apply run_pcalls_state in E. rewrite P0 in E. destruct e0 as [s p0]. cbn [psetup psize] in *. subst p0 e. cbn [run_pcall]. unfold pe_dct, setup_for, ppoints. cbn [psetup psize]. rewrite H. destruct (first_need h) as [k|]; destruct (copy_front x d (Z.to_nat s)); cbn [bind]; try reflexivity; destruct (lee_dct a (Z.to_nat s)); reflexivity.
Qed.
(** VIOLATION: on an engine that started with a real transform (or with dct), complex data are
    processed by the real transform. *)
Theorem C56_pffft_actual n h x d e e0 : new_pengine n = Ok e0 -> run_pcalls e0 h = Ok e -> first_need h = Some PReal ->
  (ppoints e0 <= 2 * length x)%nat -> (ppoints e0 <= 2 * length d)%nat ->
  presult (run_pcall e (PCallDft x d)) = Ok (inl (complexes (pffft_real_forward (ppoints e0) (firstn (ppoints e0) (floats x)) ++ skipn (ppoints e0) (floats d)))) /\
  presult (run_pcall e (PCallIdft x d)) = Ok (inl (complexes (pffft_real_backward (ppoints e0) (floats x) ++ skipn (ppoints e0) (floats d)))).
Proof.
  intros N E H Lx Ld. destruct (fresh n e0 N) as [P0 _]. apply run_pcalls_state in E. rewrite P0, H in E. destruct e0 as [s p0]. cbn [psetup psize] in *. subst p0 e. unfold ppoints in *. cbn [psize] in *. cbn [run_pcall]. unfold pe_cdft, pe_cidft, setup_for, ppoints. cbn [psetup psize]. unfold pffft_run. rewrite !floats_length.
  destruct (Nat.ltb_spec (2 * length x) (Z.to_nat s)); [lia|]. destruct (Nat.ltb_spec (2 * length d) (Z.to_nat s)); [lia|]. split; reflexivity.
Qed.
(** ... and on an engine that started with a complex transform, real data are read out of bounds. *)
Theorem C56_pffft_overrun n h x d e e0 : new_pengine n = Ok e0 -> run_pcalls e0 h = Ok e -> first_need h = Some PComplex -> (length x < 2 * ppoints e0)%nat ->
  run_pcall e (PCallRDft x d) = UB.
Proof.
  intros N E H Lx. destruct (fresh n e0 N) as [P0 _]. apply run_pcalls_state in E. rewrite P0, H in E. destruct e0 as [s p0]. cbn [psetup psize] in *. subst p0 e. unfold ppoints in *. cbn [psize] in *. cbn [run_pcall]. unfold pe_dft, setup_for, ppoints. cbn [psetup psize]. unfold pffft_run.
  destruct (Nat.ltb_spec (length x) (2 * Z.to_nat s)); [reflexivity|lia].
Qed.
(** A complex transform after a cosine transform differs from one on a fresh engine. *)
Theorem C56_pffft_refuted : exists e0 x d y e, new_pengine 32 = Ok e0 /\ run_pcalls e0 [PCallDct x d] = Ok e /\ length y = 32%nat /\
  presult (run_pcall e (PCallDft y y)) <> presult (run_pcall e0 (PCallDft y y)).
Proof.
  exists (mkPengine 32 None), (impulse 32), (impulse 32), (map RtoC (impulse 32)).
  destruct (C55_lee_dct 5 (impulse 32) eq_refl) as [X [EX _]]. assert (Run : run_pcalls (mkPengine 32 None) [PCallDct (impulse 32) (impulse 32)] = Ok (mkPengine 32 (Some PReal))).
  { cbn [run_pcalls run_pcall]. unfold pe_dct, setup_for. cbn [psetup psize]. change (pffft_supported PReal 32) with true. cbv iota. change (ppoints (mkPengine 32 None)) with 32%nat. rewrite (copy_all (impulse 32) (impulse 32) 32) by reflexivity. cbn [bind]. change (length (impulse 32)) with 32%nat in EX. rewrite EX. reflexivity. }
  exists (mkPengine 32 (Some PReal)). split; [reflexivity|]. split; [exact Run|]. split; [reflexivity|]. set (y := map RtoC (impulse 32)).
  destruct (C56_pffft_actual 32 [PCallDct (impulse 32) (impulse 32)] y y (mkPengine 32 (Some PReal)) (mkPengine 32 None)) as [A _]; [reflexivity|exact Run|reflexivity|cbn; lia|cbn; lia|]. rewrite A. clear A.
  assert (B : presult (run_pcall (mkPengine 32 None) (PCallDft y y)) = Ok (inl (fftw_forward 32 y))).
  { cbn [run_pcall]. unfold pe_cdft. change (setup_for (mkPengine 32 None) PComplex) with (Some PComplex). change (ppoints (mkPengine 32 None)) with 32%nat. unfold pffft_run. rewrite !floats_length. change (length y) with 32%nat. cbn [Nat.mul Nat.add Nat.ltb Nat.leb orb]. rewrite complexes_floats. change 64%nat with (2 * 32)%nat. rewrite floats_skipn. change (skipn 32 y) with (@nil C). cbn [floats flat_map]. rewrite app_nil_r. cbn [bind presult rmap fst snd]. fold (floats (fftw_forward 32 y)). rewrite complexes_floats. reflexivity. }
  rewrite B. clear B. change (ppoints (mkPengine 32 None)) with 32%nat. intros A.
  assert (A1 : nth 16 (complexes (pffft_real_forward 32 (firstn 32 (floats y)) ++ skipn 32 (floats y))) C0 = nth 16 (fftw_forward 32 y) C0) by (apply (f_equal (fun r => match r with Ok (inl l) => nth 16 l C0 | _ => C0 end)) in A; exact A).
  unfold pffft_real_forward in A1. rewrite (floats_skipn 16 y : skipn 32 (floats y) = floats (skipn 16 y)) in A1. rewrite complexes_pack in A1. change (32 / 2)%nat with 16%nat in A1. cbn [nth Nat.sub] in A1. rewrite app_nth2 in A1 by (rewrite map_length, seq_length; lia). rewrite map_length, seq_length in A1. change (15 - 15)%nat with 0%nat in A1. change (nth 0 (skipn 16 y) C0) with (RtoC 0) in A1.
  rewrite forward_tab, nth_map_seq in A1 by lia. assert (I : DFT 32 (fun j => nth j y C0) 16 = C1).
  { rewrite (DFT_ext _ _ (fun j => RtoC (nth j (impulse 32) 0))) by (intros j _; unfold y; change C0 with (RtoC 0); apply map_nth). rewrite DFT_fourier. apply (impulse_spectrum 32 16). lia. }
  rewrite I in A1. injection A1. lra.
Qed.
Print Assumptions C55_lee_dct.
Print Assumptions C55_lee_idct.
Print Assumptions C55_pffft_dct.
Print Assumptions C55_pffft_idct.
Print Assumptions C55_pffft_round_trip.
Print Assumptions C55_pffft_three.
Print Assumptions C55_pffft_refuted.
Print Assumptions C51_pffft_cdft.
Print Assumptions C54_pffft_hilbert.
Print Assumptions C51_pffft_dft_actual.
Print Assumptions C51_pffft_dft_refuted.
Print Assumptions C51_pffft_real_round_trip.
Print Assumptions C80_pffft_spectrum_actual.
Print Assumptions C80_pffft_empty.
Print Assumptions C80_pffft_refuted.
Print Assumptions C81_pffft_actual.
Print Assumptions C81_pffft_refuted.
Print Assumptions C52_pffft_actual.
Print Assumptions C52_pffft_refuted.
Print Assumptions C56_pffft_one_kind.
Print Assumptions C56_pffft_dct.
Print Assumptions C56_pffft_actual.
Print Assumptions C56_pffft_overrun.
Print Assumptions C56_pffft_refuted.
