(** Lemmas about the spectral model. *)
From Verif Require Import Base BaseProofs RealBase RealBaseProofs AlgModel SpectralModel SpectralSpec CplxProofs FourierProofs.
From Verif Require Import Cplx.
From Coq Require Import ZArith Lia.
Local Open Scope res_scope.
Local Open Scope R_scope.

Lemma mapM_map {A B} (f : A -> res B) (g : A -> B) l : (forall x, In x l -> f x = Ok (g x)) -> mapM f l = Ok (map g l).
Proof. induction l as [|x l IH]; intros H; auto. cbn [mapM map]. rewrite H by (left; auto). cbn [bind]. rewrite IH by (intros; apply H; right; auto). reflexivity. Qed.
Lemma nth_map_seq {A} (f : nat -> A) n k d : (k < n)%nat -> nth k (map f (seq 0 n)) d = f k.
Proof. intros H. rewrite (nth_indep _ d (f 0%nat)) by (rewrite map_length, seq_length; auto). rewrite map_nth, seq_nth; auto. Qed.
Lemma tabulates_map {A} (f : nat -> A) n : tabulates (map f (seq 0 n)) n f.
Proof. split; [rewrite map_length, seq_length; auto|]. intros. apply nth_map_seq; auto. Qed.
Lemma list_tab {A} (l : list A) d : l = map (fun k => nth k l d) (seq 0 (length l)).
Proof. apply (nth_ext _ _ d d); [rewrite map_length, seq_length; auto|]. intros k H. rewrite nth_map_seq; auto. Qed.
Lemma tab_eq {A} (l : list A) n f : tabulates l n f -> l = map f (seq 0 n).
Proof. intros [L H]. destruct l as [|x l]; [subst n; reflexivity|]. apply (nth_ext _ _ x x); [rewrite map_length, seq_length; auto|]. intros k K. rewrite nth_map_seq by lia. apply H. lia. Qed.
Lemma map_tab_ext {A} (f g : nat -> A) n : (forall k, (k < n)%nat -> f k = g k) -> map f (seq 0 n) = map g (seq 0 n).
Proof. intros H. apply map_ext_in. intros k K. apply in_seq in K. apply H. lia. Qed.
Lemma firstn_tab {A} (f : nat -> A) m n : (m <= n)%nat -> firstn m (map f (seq 0 n)) = map f (seq 0 m).
Proof. intros H. rewrite firstn_map. f_equal. replace n with (m + (n - m))%nat by lia. rewrite seq_app, firstn_app, seq_length, Nat.sub_diag, firstn_all2 by (rewrite seq_length; lia). cbn. apply app_nil_r. Qed.
Lemma zip_tab f (F G : nat -> C) m : zip_with f (map F (seq 0 m)) (map G (seq 0 m)) = map (fun k => f (F k) (G k)) (seq 0 m).
Proof. generalize 0%nat. induction m as [|m IH]; intros s; cbn [seq map zip_with]; auto. rewrite IH. reflexivity. Qed.

(** Sizes. *)
Lemma to_int32_id z : (- 2 ^ 31 <= z < 2 ^ 31)%Z -> to_int32 z = z.
Proof. intros H. unfold to_int32. rewrite Z.mod_small by lia. lia. Qed.
Lemma new_engine_ok n : fits n -> new_engine (Z.of_nat n) = mkEngine (Z.of_nat n) None.
Proof. intros [H L]. unfold new_engine. rewrite to_int32_id by lia. reflexivity. Qed.
Lemma planned_new n k : fits n -> planned (mkEngine (Z.of_nat n) None) k = Some k.
Proof. intros [H L]. unfold planned. cbn. destruct (Z.ltb_spec 0 (Z.of_nat n)); [auto|lia]. Qed.
Lemma points_ok n p : points (mkEngine (Z.of_nat n) p) = n.
Proof. unfold points. cbn. apply Nat2Z.id. Qed.
Lemma cdft_raw n x : fits n -> (n <= length x)%nat -> eng_cdft (mkEngine (Z.of_nat n) None) x = Ok (mkEngine (Z.of_nat n) (Some Forward), fftw_forward n x).
Proof. intros F L. unfold eng_cdft. rewrite planned_new, points_ok by auto. unfold execute_dft. destruct (Nat.ltb_spec (length x) n); [lia|reflexivity]. Qed.
Lemma cidft_raw n x : fits n -> (n <= length x)%nat -> eng_cidft (mkEngine (Z.of_nat n) None) x = Ok (mkEngine (Z.of_nat n) (Some Backward), fftw_backward n x).
Proof. intros F L. unfold eng_cidft. rewrite planned_new, points_ok by auto. unfold execute_dft. destruct (Nat.ltb_spec (length x) n); [lia|reflexivity]. Qed.
Lemma dft_raw n x p : fits n -> (n <= length x)%nat -> p = None \/ p = Some R2C -> eng_dft (mkEngine (Z.of_nat n) p) x = Ok (mkEngine (Z.of_nat n) (Some R2C), fftw_r2c n x).
Proof. intros F L [->| ->]; unfold eng_dft; [rewrite planned_new by auto|cbn [planned plan]]; rewrite points_ok; unfold execute_r2c; destruct (Nat.ltb_spec (length x) n); try lia; reflexivity. Qed.
Lemma idft_raw n x : fits n -> (n / 2 + 1 <= length x)%nat -> eng_idft (mkEngine (Z.of_nat n) None) x = Ok (mkEngine (Z.of_nat n) (Some C2R), fftw_c2r n x).
Proof. intros F L. unfold eng_idft. rewrite planned_new, points_ok by auto. unfold execute_c2r. destruct (Nat.ltb_spec (length x) (n / 2 + 1)); [lia|reflexivity]. Qed.
Lemma IZR_pos n : fits n -> IZR (Z.of_nat n) = INR n /\ INR n <> 0.
Proof. intros [H _]. rewrite <- INR_IZR_INZ. split; [auto|apply INR_neq0; auto]. Qed.
Lemma idft_scale_ok n p (d : list R) : fits n -> length d = n -> idft_scale (mkEngine (Z.of_nat n) p) d = Ok (map (fun x => x / INR n) d).
Proof.
  intros F L. unfold idft_scale. rewrite points_ok, L, Nat.ltb_irrefl. cbn [nfft]. destruct (IZR_pos n F) as [-> N]. rewrite <- L, firstn_all, skipn_all. rewrite (mapM_map _ (fun x => x / INR (length d))); [cbn [bind]; rewrite app_nil_r; auto|].
  intros x _. apply rdiv_ok. rewrite L. auto.
Qed.
Lemma cidft_scale_ok n p (d : list C) : fits n -> length d = n -> cidft_scale (mkEngine (Z.of_nat n) p) d = Ok (map (fun z => Cscal (/ INR n) z) d).
Proof.
  intros F L. unfold cidft_scale. rewrite points_ok, L, Nat.ltb_irrefl. cbn [nfft]. destruct (IZR_pos n F) as [-> N]. rewrite <- L, firstn_all, skipn_all. rewrite (mapM_map _ (fun z => Cscal (/ INR (length d)) z)); [cbn [bind]; rewrite app_nil_r; auto|].
  intros z _. rewrite L. rewrite !rdiv_ok by auto. cbn [bind]. apply (f_equal (@Ok C)). apply C_eq; cbn; unfold Rdiv; ring.
Qed.
Lemma idct_scale_ok n p (d : list R) : fits n -> (2 * Z.of_nat n < 2 ^ 31)%Z -> length d = n -> idct_scale (mkEngine (Z.of_nat n) p) d = Ok (map (fun x => x / (2 * INR n)) d).
Proof.
  intros F B L. unfold idct_scale. cbn [nfft]. destruct (Z.leb_spec (2 ^ 31) (2 * Z.of_nat n)); [lia|]. rewrite points_ok, L, Nat.ltb_irrefl. rewrite mult_IZR. destruct (IZR_pos n F) as [-> N]. rewrite <- L, firstn_all, skipn_all. rewrite (mapM_map _ (fun x => x / (2 * INR (length d)))); [cbn [bind]; rewrite app_nil_r; auto|].
  intros x _. apply rdiv_ok. rewrite L. lra.
Qed.

(** Library transforms as tabulations. *)
Lemma forward_tab n x : fftw_forward n x = map (DFT n (fun j => nth j x C0)) (seq 0 n). Proof. reflexivity. Qed.
Lemma backward_tab n x : fftw_backward n x = map (IDFT n (fun j => nth j x C0)) (seq 0 n). Proof. reflexivity. Qed.
Lemma half_le n : (n / 2 + 1 <= n \/ n = 1 \/ n = 0)%nat.
Proof. pose proof (Nat.div_mod n 2 ltac:(lia)). lia. Qed.
Lemma r2c_tab n x : (0 < n)%nat -> fftw_r2c n x = map (DFT n (fun j => RtoC (nth j x 0))) (seq 0 (n / 2 + 1)).
Proof.
  intros H. unfold fftw_r2c. rewrite forward_tab.
  assert (E : map (DFT n (fun j => nth j (map RtoC x) C0)) (seq 0 n) = map (DFT n (fun j => RtoC (nth j x 0))) (seq 0 n)) by (apply map_ext; intros k; apply DFT_ext; intros j _; change C0 with (RtoC 0); rewrite map_nth; reflexivity).
  rewrite E. apply firstn_tab. destruct (half_le n) as [|[->| ->]]; auto; try lia.
Qed.
(** [F] is the spectrum of a real signal of length n. *)
Definition hermitian_sym (n : nat) (F : nat -> C) : Prop := Cconj (F 0%nat) = F 0%nat /\ forall k, (0 < k < n)%nat -> F (n - k)%nat = Cconj (F k).
Lemma hermitian_half n F k : hermitian_sym n F -> (k < n)%nat -> hermitian n (map F (seq 0 (n / 2 + 1))) k = F k.
Proof.
  intros [H0 H] K. unfold hermitian. pose proof (Nat.div_mod n 2 ltac:(lia)) as D. assert (M : (n mod 2 < 2)%nat) by (apply Nat.mod_upper_bound; lia). destruct (Nat.eqb_spec k 0) as [->|K0].
  - cbn [orb]. rewrite nth_map_seq by lia. symmetry. apply Cconj_real. auto.
  - destruct (Nat.eqb_spec (2 * k) n) as [E|E]; cbn [orb].
    + rewrite nth_map_seq by lia. symmetry. apply Cconj_real. rewrite <- H by lia. f_equal. lia.
    + destruct (Nat.ltb_spec (2 * k) n); rewrite nth_map_seq by lia; auto. rewrite H by lia. apply Cconj_invol.
Qed.
Lemma c2r_tab n F : hermitian_sym n F -> fftw_c2r n (map F (seq 0 (n / 2 + 1))) = map (fun m => Re (IDFT n F m)) (seq 0 n).
Proof.
  intros H. unfold fftw_c2r. rewrite backward_tab, map_map. apply map_ext. intros m. f_equal. apply IDFT_ext. intros k K. rewrite nth_map_seq by auto. apply hermitian_half; auto.
Qed.
Lemma real_sym n (x : nat -> R) : (0 < n)%nat -> hermitian_sym n (DFT n (fun j => RtoC (x j))).
Proof.
  intros H. split.
  - rewrite <- DFT_hermitian by lia. rewrite Nat.sub_0_r. unfold DFT. apply csumf_ext. intros j _. f_equal. rewrite <- (tw_period n (- (Z.of_nat j * Z.of_nat n)) (Z.of_nat j) H). f_equal. ring.
  - intros k K. apply DFT_hermitian; lia.
Qed.
Lemma mul_sym n F G : hermitian_sym n F -> hermitian_sym n G -> hermitian_sym n (fun k => Cmul (F k) (G k)).
Proof. intros [A B] [A' B']. split; [rewrite Cconj_mul, A, A'; auto|]. intros k K. rewrite B, B' by auto. rewrite Cconj_mul. auto. Qed.
Lemma conj_sym n F : hermitian_sym n F -> hermitian_sym n (fun k => Cconj (F k)).
Proof. intros [A B]. split; [rewrite A; auto|]. intros k K. rewrite B by auto. auto. Qed.
Lemma tw_fourier n j k : tw n (- (Z.of_nat j * Z.of_nat k)) = Cexp (- (2 * PI * INR k * INR j / INR n)).
Proof. unfold tw. f_equal. rewrite opp_IZR, mult_IZR, <- !INR_IZR_INZ. unfold Rdiv. ring. Qed.
Lemma DFT_fourier n x k : DFT n x k = fourier n x k.
Proof. apply csumf_ext. intros j _. rewrite tw_fourier. reflexivity. Qed.

(** Conjugate of an inverse transform. *)
Lemma conj_IDFT n X m : (0 < n)%nat -> Cconj (IDFT n X m) = IDFT n (fun k => Cconj (X (if (k =? 0)%nat then 0%nat else (n - k)%nat))) m.
Proof.
  intros H. unfold IDFT. rewrite Cconj_csumf. destruct n as [|n]; [lia|]. rewrite !csumf_S_l. f_equal.
  - cbn [Nat.eqb]. rewrite Cconj_mul, tw_conj. f_equal.
  - set (g := fun i => Cmul (Cconj (X (S n - S i)%nat)) (tw (S n) (Z.of_nat (S i) * Z.of_nat m))).
    transitivity (csumf (fun i => g (n - 1 - i)%nat) n).
    + apply csumf_ext. intros i L. unfold g. rewrite Cconj_mul, tw_conj. replace (S n - S (n - 1 - i))%nat with (S i) by lia. f_equal. rewrite <- (tw_period (S n) (- (Z.of_nat (S i) * Z.of_nat m)) (Z.of_nat m)) by lia. f_equal. replace (Z.of_nat (S (n - 1 - i))) with (Z.of_nat (S n) - Z.of_nat (S i))%Z by lia. ring.
    + apply C_eq; rewrite ?Re_csumf, ?Im_csumf; symmetry; [apply (sumf_rev (fun i => Re (g i)))|apply (sumf_rev (fun i => Im (g i)))].
Qed.
Lemma IDFT_plus n X Y m : IDFT n (fun k => Cadd (X k) (Y k)) m = Cadd (IDFT n X m) (IDFT n Y m).
Proof. unfold IDFT. rewrite <- csumf_plus. apply csumf_ext. intros. ring. Qed.
Lemma IDFT_scal n c X m : IDFT n (fun k => Cmul c (X k)) m = Cmul c (IDFT n X m).
Proof. unfold IDFT. rewrite <- csumf_scal. apply csumf_ext. intros. ring. Qed.

(** Zero padding. *)
Lemma padded_ok N (x : list R) : (N <= length x)%nat -> padded N x = Ok (firstn N x ++ repeat 0 N).
Proof. intros H. unfold padded. destruct (Nat.ltb_spec (length x) N); [lia|]. do 3 f_equal. lia. Qed.
Lemma nth_padded N (x : list R) j : (N <= length x)%nat -> nth j (firstn N x ++ repeat 0 N) 0 = if (j <? N)%nat then nth j x 0 else 0.
Proof.
  intros H. assert (L : length (firstn N x) = N) by (rewrite firstn_length; lia). destruct (Nat.ltb_spec j N).
  - rewrite app_nth1 by lia. rewrite <- (firstn_skipn N x) at 2. rewrite app_nth1 by lia. reflexivity.
  - rewrite app_nth2 by lia. rewrite L. clear. generalize (j - N)%nat. induction N as [|N IH]; intros [|k]; cbn; auto.
Qed.
(** No wrap-around: the product of two padded spectra. *)
Lemma pad_conv N x y m : (0 < N)%nat -> (m < N)%nat ->
  let p := fun (u : nat -> R) j => RtoC (if (j <? N)%nat then u j else 0) in
  Re (IDFT (2 * N) (fun k => Cmul (DFT (2 * N) (p x) k) (DFT (2 * N) (p y) k)) m) = INR (2 * N) * sumf (fun j => x j * y (m - j)%nat) (S m).
Proof.
  intros H M p. rewrite IDFT_mul. set (n := (2 * N)%nat).
  rewrite (csumf_ext _ (fun j => RtoC (if (j <=? m)%nat then INR n * (x j * y (m - j)%nat) else 0))).
  - rewrite Re_csumf. assert (E : forall f, sumf f n = sumf f (S m + (n - S m))) by (intros; f_equal; unfold n; lia). rewrite E, sumf_app. rewrite <- sumf_scal.
    rewrite (sumf_ext _ (fun j => INR n * (x j * y (m - j)%nat)) (S m)). 2:{ intros j L. cbn [RtoC Re fst]. destruct (Nat.leb_spec j m); [reflexivity|lia]. }
    rewrite (sumf_ext _ (fun _ => 0) (n - S m)). 2:{ intros j L. destruct (Nat.leb_spec (S m + j) m); [lia|reflexivity]. }
    rewrite sumf_zero. ring.
  - intros j L. destruct (Nat.ltb_spec j N) as [J|J].
    + destruct (Nat.leb_spec j m) as [JM|JM].
      * rewrite (csumf_single _ n (m - j)%nat).
        -- unfold p. destruct (Nat.ltb_spec j N); [|lia]. destruct (Nat.ltb_spec (m - j) N); [|lia]. rewrite tw_sum by (unfold n; lia). destruct (Z.eqb_spec (Z.of_nat m - Z.of_nat j - Z.of_nat (m - j)) 0); [|lia]. rewrite <- !RtoC_mul. f_equal. fold n. ring.
        -- unfold n; lia.
        -- intros l Ll Nl. unfold p. destruct (Nat.ltb_spec l N); [rewrite tw_sum by (unfold n; lia); destruct (Z.eqb_spec (Z.of_nat m - Z.of_nat j - Z.of_nat l) 0); [lia|ring]|change (RtoC 0) with C0; ring].
      * change (RtoC 0) with C0. rewrite <- (csumf_zero n). apply csumf_ext. intros l Ll. unfold p. destruct (Nat.ltb_spec l N); [rewrite tw_sum by (unfold n; lia); destruct (Z.eqb_spec (Z.of_nat m - Z.of_nat j - Z.of_nat l) 0); [lia|ring]|change (RtoC 0) with C0; ring].
    + destruct (Nat.leb_spec j m); [lia|]. change (RtoC 0) with C0. rewrite <- (csumf_zero n). apply csumf_ext. intros l Ll. unfold p at 1. destruct (Nat.ltb_spec j N); [lia|]. change (RtoC 0) with C0. ring.
Qed.
Lemma pad_corr N x y m : (0 < N)%nat -> (m < N)%nat ->
  let p := fun (u : nat -> R) j => RtoC (if (j <? N)%nat then u j else 0) in
  Re (IDFT (2 * N) (fun k => Cmul (DFT (2 * N) (p x) k) (Cconj (DFT (2 * N) (p y) k))) m) = INR (2 * N) * sumf (fun j => x (j + m)%nat * y j) (N - m).
Proof.
  intros H M p. rewrite IDFT_mul_conj. set (n := (2 * N)%nat). assert (Cp : forall l, Cconj (p y l) = p y l) by (intros; apply C_eq; cbn; ring).
  rewrite (csumf_ext _ (fun j => RtoC (if (m <=? j)%nat && (j <? N)%nat then INR n * (x j * y (j - m)%nat) else 0))).
  - rewrite Re_csumf. assert (E : forall f, sumf f n = sumf f (m + ((N - m) + N))) by (intros; f_equal; unfold n; lia). rewrite E, sumf_app, sumf_app. rewrite <- sumf_scal.
    rewrite (sumf_ext _ (fun _ => 0) m). 2:{ intros j L. destruct (Nat.leb_spec m j); [lia|reflexivity]. }
    rewrite (sumf_ext _ (fun j => INR n * (x (j + m)%nat * y j)) (N - m)). 2:{ intros j L. destruct (Nat.leb_spec m (m + j)); [|lia]. destruct (Nat.ltb_spec (m + j) N); [|lia]. cbn [andb RtoC Re fst]. replace (m + j - m)%nat with j by lia. rewrite (Nat.add_comm m j). reflexivity. }
    rewrite (sumf_ext _ (fun _ => 0) N). 2:{ intros j L. destruct (Nat.ltb_spec (m + (N - m + j)) N); [lia|]. rewrite Bool.andb_false_r. reflexivity. }
    rewrite !sumf_zero. ring.
  - intros j L. destruct (Nat.ltb_spec j N) as [J|J].
    + rewrite Bool.andb_true_r. destruct (Nat.leb_spec m j) as [JM|JM].
      * rewrite (csumf_single _ n (j - m)%nat).
        -- rewrite Cp. unfold p. destruct (Nat.ltb_spec j N); [|lia]. destruct (Nat.ltb_spec (j - m) N); [|lia]. rewrite tw_sum by (unfold n; lia). destruct (Z.eqb_spec (Z.of_nat m - Z.of_nat j + Z.of_nat (j - m)) 0); [|lia]. rewrite <- !RtoC_mul. f_equal. fold n. ring.
        -- unfold n; lia.
        -- intros l Ll Nl. rewrite Cp. unfold p. destruct (Nat.ltb_spec l N); [rewrite tw_sum by (unfold n; lia); destruct (Z.eqb_spec (Z.of_nat m - Z.of_nat j + Z.of_nat l) 0); [lia|ring]|change (RtoC 0) with C0; ring].
      * change (RtoC 0) with C0. rewrite <- (csumf_zero n). apply csumf_ext. intros l Ll. rewrite Cp. unfold p. destruct (Nat.ltb_spec l N); [rewrite tw_sum by (unfold n; lia); destruct (Z.eqb_spec (Z.of_nat m - Z.of_nat j + Z.of_nat l) 0); [lia|ring]|change (RtoC 0) with C0; ring].
    + rewrite Bool.andb_false_r. change (RtoC 0) with C0. rewrite <- (csumf_zero n). apply csumf_ext. intros l Ll. unfold p at 1. destruct (Nat.ltb_spec j N); [lia|]. change (RtoC 0) with C0. ring.
Qed.
