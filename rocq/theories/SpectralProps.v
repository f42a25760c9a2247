(** Theorems C51-C56 (FFTW back end), C80 (spectrum), C81 (Hartley), C82 (cepstrum). *)
From Verif Require Import Base BaseProofs RealBase RealBaseProofs AlgModel SpectralModel SpectralSpec CplxProofs FourierProofs SpectralProofs.
From Verif Require Import Cplx.
From Coq Require Import ZArith Lia.
Local Open Scope res_scope.
Local Open Scope R_scope.

(** [fits n]: 0 < n < 2^31, a size an engine can be created with. *)
(** * C51: the Fourier pair *)
Theorem C51_cdft x : fits (length x) -> exists X, cdft x = Ok X /\ tabulates X (length x) (fourier (length x) (fun j => nth j x C0)).
Proof.
  intros F. unfold cdft, zlen. rewrite new_engine_ok, cdft_raw by auto. cbn [bind snd]. eexists. split; [reflexivity|]. rewrite forward_tab. destruct (tabulates_map (DFT (length x) (fun j => nth j x C0)) (length x)) as [A B]. split; auto. intros k d K. rewrite B by auto. apply DFT_fourier.
Qed.
Lemma scal_inv n z : (0 < n)%nat -> Cscal (/ INR n) (Cmul (RtoC (INR n)) z) = z.
Proof. intros H. pose proof (INR_neq0 n H). apply C_eq; cbn; field; auto. Qed.
Theorem C51_complex_round_trip x X : fits (length x) -> cdft x = Ok X -> cidft X = Ok x.
Proof.
  intros F E. destruct (C51_cdft x F) as [X' [E' T]]. assert (X' = X) by congruence. subst X'. assert (L : length X = length x) by apply T.
  unfold cidft, zlen. rewrite L, new_engine_ok, cidft_raw by (auto; lia). cbn [bind fst snd]. rewrite cidft_scale_ok by (auto; rewrite backward_tab, map_length, seq_length; auto).
  f_equal. rewrite backward_tab, map_map. transitivity (map (fun j => nth j x C0) (seq 0 (length x))); [|symmetry; apply list_tab]. apply map_tab_ext. intros m M. apply tab_eq in T.
  rewrite (IDFT_ext _ _ (DFT (length x) (fun j => nth j x C0))) by (intros j J; rewrite T, nth_map_seq by auto; symmetry; apply DFT_fourier). rewrite IDFT_DFT by auto. apply scal_inv. lia.
Qed.
Theorem C51_complex_round_trip_back X x : fits (length X) -> cidft X = Ok x -> cdft x = Ok X.
Proof.
  intros F E. unfold cidft, zlen in E. rewrite new_engine_ok, cidft_raw in E by auto. cbn [bind fst snd] in E. rewrite cidft_scale_ok in E by (auto; rewrite backward_tab, map_length, seq_length; auto).
  injection E as <-. rewrite backward_tab, map_map. set (n := length X) in *. unfold cdft, zlen. rewrite map_length, seq_length. rewrite new_engine_ok, cdft_raw by (auto; rewrite map_length, seq_length; auto). cbn [bind snd]. f_equal. rewrite forward_tab. transitivity (map (fun j => nth j X C0) (seq 0 n)); [|symmetry; apply list_tab]. apply map_tab_ext. intros k K.
  rewrite (DFT_ext _ _ (fun m => Cmul (RtoC (/ INR n)) (IDFT n (fun j => nth j X C0) m))) by (intros j J; rewrite nth_map_seq by auto; apply C_eq; cbn; ring).
  transitivity (Cmul (RtoC (/ INR n)) (DFT n (IDFT n (fun j => nth j X C0)) k)).
  - unfold DFT. rewrite <- csumf_scal. apply csumf_ext. intros. ring.
  - rewrite DFT_IDFT by auto. destruct F as [P _]. pose proof (INR_neq0 _ P). apply C_eq; cbn; field; auto.
Qed.
(** The real transform gives the first N/2+1 values of the Fourier transform. *)
Theorem C51_dft x : fits (length x) -> exists H, dft x = Ok H /\ tabulates H (length x / 2 + 1) (rfourier x).
Proof.
  intros F. unfold dft, zlen. rewrite new_engine_ok, dft_raw by auto. cbn [bind snd]. eexists. split; [reflexivity|]. rewrite r2c_tab by apply F. destruct (tabulates_map (DFT (length x) (fun j => RtoC (nth j x 0))) (length x / 2 + 1)) as [A B]. split; auto. intros k d K. rewrite B by auto. apply DFT_fourier.
Qed.
(** The published sizes are the ones to allocate: make_fft_size for what dft writes, make_ifft_size of it for
    what idft writes back, which is the length of the signal when that is even and one less when odd. *)
Theorem C51_sizes x H : fits (length x) -> dft x = Ok H ->
  make_fft_size (length x) = length H /\
  make_ifft_size (length H) = (if Nat.even (length x) then Z.of_nat (length x) else Z.of_nat (length x) - 1)%Z.
Proof.
  intros F E. destruct (C51_dft x F) as [H' [E' [L _]]]. assert (H' = H) by congruence. subst H'. unfold make_fft_size, make_ifft_size. rewrite L. split; [reflexivity|].
  destruct (Nat.even (length x)) eqn:P.
  - apply Nat.even_spec in P. destruct P as [h Hh]. assert (D : (length x / 2 = h)%nat) by (rewrite Hh, Nat.mul_comm; apply Nat.div_mul; lia). lia.
  - assert (Od : Nat.odd (length x) = true) by (unfold Nat.odd; rewrite P; reflexivity). apply Nat.odd_spec in Od. destruct Od as [h Hh].
    assert (D : (length x / 2 = h)%nat) by (rewrite Hh; symmetry; apply (Nat.div_unique _ 2 h 1); lia). lia.
Qed.
(** The omitted values are the conjugates of the given ones. *)
Theorem C51_hermitian x k : (0 < length x)%nat -> (k <= length x)%nat -> rfourier x (length x - k) = Cconj (rfourier x k).
Proof. intros F K. unfold rfourier. rewrite <- !DFT_fourier. apply DFT_hermitian; auto. Qed.
Lemma c2r_length n h : length (fftw_c2r n h) = n.
Proof. unfold fftw_c2r. rewrite map_length, backward_tab, map_length, seq_length. reflexivity. Qed.
Theorem C51_real_round_trip x H : fits (length x) -> Nat.even (length x) = true -> dft x = Ok H -> idft H = Ok x.
Proof.
  intros F Ev E. apply Nat.even_spec in Ev. destruct Ev as [h Hh]. unfold dft, zlen in E. rewrite new_engine_ok, dft_raw in E by auto. cbn [bind snd] in E. injection E as <-. set (n := length x) in *. rewrite r2c_tab by apply F.
  assert (D : (n / 2 = h)%nat) by (rewrite Hh, Nat.mul_comm; apply Nat.div_mul; lia).
  unfold idft, make_ifft_size. rewrite map_length, seq_length. replace (2 * (Z.of_nat (n / 2 + 1) - 1))%Z with (Z.of_nat n) by (rewrite D; lia).
  rewrite new_engine_ok, idft_raw by (auto; rewrite map_length, seq_length; lia). cbn [bind fst snd]. rewrite idft_scale_ok by (auto; apply c2r_length).
  f_equal. rewrite c2r_tab by (apply real_sym; apply F). rewrite map_map. transitivity (map (fun j => nth j x 0) (seq 0 n)); [|symmetry; apply list_tab]. apply map_tab_ext. intros m M. rewrite IDFT_DFT by auto. cbn. destruct F as [P _]. pose proof (INR_neq0 _ P). field. auto.
Qed.
(** An odd-length signal comes back one sample short; a single sample cannot be transformed back. *)
Theorem C51_odd_length x H : fits (length x) -> Nat.odd (length x) = true -> dft x = Ok H ->
  (length x = 1%nat /\ idft H = UB) \/ exists y, idft H = Ok y /\ length y = (length x - 1)%nat.
Proof.
  intros F Od E. apply Nat.odd_spec in Od. destruct Od as [h Hh]. destruct (C51_dft x F) as [H' [E' [L _]]]. assert (H' = H) by congruence. subst H'.
  assert (D : (length x / 2 = h)%nat) by (rewrite Hh; symmetry; apply (Nat.div_unique _ 2 h 1); lia). rewrite D in L. unfold idft, make_ifft_size. rewrite L. replace (2 * (Z.of_nat (h + 1) - 1))%Z with (Z.of_nat (2 * h)) by lia.
  destruct h as [|h]; [left; split; [lia|destruct H as [|h0 H]; reflexivity]|]. right.
  assert (F2 : fits (2 * S h)) by (destruct F; split; lia). rewrite new_engine_ok, idft_raw; auto.
  - cbn [bind fst snd]. rewrite idft_scale_ok by (auto; apply c2r_length). eexists. split; [reflexivity|]. rewrite map_length, c2r_length. lia.
  - rewrite L. rewrite Nat.mul_comm, Nat.div_mul by lia. lia.
Qed.
Example C51_ex : fits (length [1; 2; 3; 4]) /\ Nat.even (length [1; 2; 3; 4]) = true. Proof. split; [split; cbn; lia|reflexivity]. Qed.

(** * C52: convolution *)
Lemma nonempty_match {A B} (x : list A) (u v : B) : (0 < length x)%nat -> match x with [] => u | _ => v end = v.
Proof. destruct x; cbn; [lia|auto]. Qed.
Lemma spectra_prep N x : (0 < N)%nat -> (N <= length x)%nat -> (2 * Z.of_nat N < 2 ^ 31)%Z -> forall p, p = None \/ p = Some R2C ->
  eng_dft (mkEngine (Z.of_nat (2 * N)) p) (firstn N x ++ repeat 0 N) =
  Ok (mkEngine (Z.of_nat (2 * N)) (Some R2C), map (DFT (2 * N) (fun j => RtoC (if (j <? N)%nat then nth j x 0 else 0))) (seq 0 (2 * N / 2 + 1))).
Proof.
  intros H L B p P. assert (F : fits (2 * N)) by (split; lia). rewrite dft_raw; auto.
  - do 2 f_equal. rewrite r2c_tab by lia. apply map_ext. intros k. apply DFT_ext. intros j _. rewrite nth_padded by auto. reflexivity.
  - rewrite app_length, firstn_length, repeat_length. lia.
Qed.
Theorem C52_conv x y : (0 < length x)%nat -> (length x <= length y)%nat -> (2 * Z.of_nat (length x) < 2 ^ 31)%Z ->
  exists out, conv x y = Ok out /\ tabulates out (length x) (linear_convolution x y).
Proof.
  intros H L B. set (N := length x). assert (F : fits (2 * N)) by (split; lia). unfold conv. rewrite nonempty_match by auto. cbv zeta. fold N.
  rewrite !padded_ok by (auto; lia). cbn [bind]. replace (2 * Z.of_nat N)%Z with (Z.of_nat (2 * N)) by lia. rewrite new_engine_ok by auto.
  rewrite spectra_prep by (auto; unfold N in *; lia). cbn [bind fst snd]. rewrite spectra_prep by (auto; unfold N in *; lia). cbn [bind fst snd]. rewrite zip_tab.
  rewrite idft_raw by (auto; rewrite map_length, seq_length; lia). cbn [bind fst snd]. rewrite idft_scale_ok by (auto; apply c2r_length). cbn [bind].
  rewrite c2r_tab by (apply mul_sym; apply real_sym; lia). rewrite map_map, firstn_tab by lia. eexists. split; [reflexivity|].
  destruct (tabulates_map (fun m => Re (IDFT (2 * N) (fun k => Cmul (DFT (2 * N) (fun j => RtoC (if (j <? N)%nat then nth j x 0 else 0)) k) (DFT (2 * N) (fun j => RtoC (if (j <? N)%nat then nth j y 0 else 0)) k)) m) / INR (2 * N)) N) as [T1 T2].
  split; auto. intros k d K. rewrite T2 by auto. rewrite (pad_conv N (fun j => nth j x 0) (fun j => nth j y 0) k) by lia. unfold linear_convolution. pose proof (INR_neq0 (2 * N) ltac:(lia)). field. auto.
Qed.
Example C52_ex : linear_convolution [1; 2; 3] [4; 5; 6] 2 = 28. Proof. unfold linear_convolution. cbn. ring. Qed.

(** * C53: correlation *)
Lemma xcorr_value x y s : (0 < length x)%nat -> (length x <= length y)%nat -> (2 * Z.of_nat (length x) < 2 ^ 31)%Z ->
  xcorr x y s = Ok (map (fun k => INR (2 * length x) * correlation_at (length x) x y k / xcorr_factor (2 * Z.of_nat (length x)) s) (seq 0 (length x))).
Proof.
  intros H L B. set (N := length x). assert (F : fits (2 * N)) by (split; lia). unfold xcorr. rewrite nonempty_match by auto. cbv zeta. fold N.
  rewrite !padded_ok by (auto; lia). cbn [bind]. replace (2 * Z.of_nat N)%Z with (Z.of_nat (2 * N)) by lia. rewrite new_engine_ok by auto.
  rewrite spectra_prep by (auto; unfold N in *; lia). cbn [bind fst snd]. rewrite spectra_prep by (auto; unfold N in *; lia). cbn [bind fst snd]. rewrite zip_tab.
  rewrite idft_raw by (auto; rewrite map_length, seq_length; lia). cbn [bind fst snd].
  rewrite c2r_tab by (apply mul_sym; [apply real_sym; lia|apply conj_sym; apply real_sym; lia]). rewrite firstn_tab by lia.
  assert (NZ : xcorr_factor (Z.of_nat (2 * N)) s <> 0) by (unfold xcorr_factor; apply not_0_IZR; destruct s; nia).
  rewrite (mapM_map _ (fun v => v / xcorr_factor (Z.of_nat (2 * N)) s)) by (intros; apply rdiv_ok; auto). f_equal. rewrite map_map. apply map_tab_ext. intros k K.
  rewrite (pad_corr N (fun j => nth j x 0) (fun j => nth j y 0) k) by lia. unfold correlation_at. reflexivity.
Qed.
Lemma factor_none N s : s <> Biased -> xcorr_factor (2 * Z.of_nat N) s = INR (2 * N).
Proof. intros H. unfold xcorr_factor. rewrite INR_IZR_INZ. f_equal. destruct s; try contradiction; lia. Qed.
(** Without scaling, out[k] = sum_j x[j+k] y[j]. *)
Theorem C53_xcorr_raw x y : (0 < length x)%nat -> (length x <= length y)%nat -> (2 * Z.of_nat (length x) < 2 ^ 31)%Z ->
  exists out, xcorr x y ScaleNone = Ok out /\ tabulates out (length x) (correlation_at (length x) x y).
Proof.
  intros H L B. rewrite xcorr_value by auto. eexists. split; [reflexivity|]. rewrite factor_none by discriminate. pose proof (INR_neq0 (2 * length x) ltac:(lia)).
  split; [rewrite map_length, seq_length; auto|]. intros k d K. rewrite nth_map_seq by auto. field. auto.
Qed.
(** VIOLATION: "Biased" divides by 2N instead of N. *)
Theorem C53_biased_actual x y : (0 < length x)%nat -> (length x <= length y)%nat -> (2 * Z.of_nat (length x) < 2 ^ 31)%Z ->
  exists out, xcorr x y Biased = Ok out /\ tabulates out (length x) (fun k => correlation_at (length x) x y k / (2 * INR (length x))).
Proof.
  intros H L B. rewrite xcorr_value by auto. eexists. split; [reflexivity|]. pose proof (INR_neq0 (length x) ltac:(lia)).
  assert (E : xcorr_factor (2 * Z.of_nat (length x)) Biased = INR (2 * length x) * INR (2 * length x)) by (unfold xcorr_factor; rewrite mult_IZR, !INR_IZR_INZ; f_equal; f_equal; lia).
  split; [rewrite map_length, seq_length; auto|]. intros k d K. rewrite nth_map_seq, E by auto. rewrite mult_INR. simpl (INR 2). field. auto.
Qed.
Theorem C53_biased_refuted : exists x out, xcorr x x Biased = Ok out /\ nth 0 out 0 <> correlation_at 1 x x 0 / 1.
Proof.
  destruct (C53_biased_actual [1] [1]) as [out [E [_ T]]]; cbn; try lia. exists [1], out. split; auto. rewrite T by (cbn; lia). unfold correlation_at. cbn. lra.
Qed.
(** VIOLATION: "Unbiased" does not scale at all. *)
Theorem C53_unbiased_actual x y : (0 < length x)%nat -> (length x <= length y)%nat -> (2 * Z.of_nat (length x) < 2 ^ 31)%Z ->
  xcorr x y Unbiased = xcorr x y ScaleNone.
Proof. intros H L B. rewrite !xcorr_value by auto. rewrite !factor_none by discriminate. reflexivity. Qed.
Theorem C53_unbiased_refuted : exists x out, xcorr x x Unbiased = Ok out /\ nth 0 out 0 <> correlation_at 2 x x 0 / 2.
Proof.
  exists [1; 1]. rewrite C53_unbiased_actual by (cbn; lia). destruct (C53_xcorr_raw [1; 1] [1; 1]) as [out [E [_ T]]]; cbn [length]; try lia. exists out. split; auto. rewrite T by (cbn; lia). unfold correlation_at. cbn. lra.
Qed.
(** The one-range overload is the correlation of the range with itself. *)
Theorem C53_autocorrelation x s : (2 * Z.of_nat (length x) < 2 ^ 31)%Z -> autocorr x s = xcorr x x s.
Proof.
  intros B. assert (H : x = [] \/ (0 < length x)%nat) by (destruct x; [auto|right; cbn; lia]). destruct H as [->|H]; [reflexivity|]. unfold autocorr, xcorr. rewrite !nonempty_match by auto. cbv zeta. set (N := length x). assert (F : fits (2 * N)) by (unfold N; split; lia).
  rewrite !padded_ok by (unfold N; lia). cbn [bind]. replace (2 * Z.of_nat N)%Z with (Z.of_nat (2 * N)) by lia. rewrite new_engine_ok by auto.
  rewrite spectra_prep by (auto; unfold N in *; lia). cbn [bind fst snd]. rewrite spectra_prep by (auto; unfold N in *; lia). cbn [bind fst snd]. rewrite zip_tab, map_map. reflexivity.
Qed.
Example C53_ex : correlation_at 3 [1; 2; 3] [4; 5; 6] 1 = 23. Proof. unfold correlation_at. cbn. ring. Qed.

(** * C54: the analytic signal *)
Lemma nth_indexed {A B} (f : nat -> A -> B) (l : list A) k da db : (k < length l)%nat -> nth k (indexed f l) db = f k (nth k l da).
Proof.
  intros K. unfold indexed. rewrite (nth_indep _ db (f 0%nat da)) by (rewrite map_length, combine_length, seq_length; lia). change (f 0%nat da) with ((fun p => f (fst p) (snd p)) (0%nat, da)). rewrite map_nth, combine_nth by (rewrite seq_length; auto). rewrite seq_nth by auto. reflexivity.
Qed.
Lemma indexed_length {A B} (f : nat -> A -> B) (l : list A) : length (indexed f l) = length l.
Proof. unfold indexed. rewrite map_length, combine_length, seq_length. lia. Qed.
Lemma hilbert_mask_spec n k z : (k < n)%nat -> hilbert_mask n k z =
  if (k =? 0)%nat || (2 * k =? n)%nat then z else if (2 * k <? n)%nat then Cscal 2 z else C0.
Proof.
  intros K. unfold hilbert_mask, hilbert_limit2, hilbert_limit1. destruct (Nat.even n) eqn:E.
  - apply Nat.even_spec in E. destruct E as [h Hh]. assert (D : (n / 2 = h)%nat) by (rewrite Hh, Nat.mul_comm; apply Nat.div_mul; lia). rewrite D.
    destruct (Nat.eqb_spec k 0); [subst k; cbn [Nat.leb andb orb]; destruct (Nat.leb_spec (h + 1) 0); [lia|reflexivity]|]. destruct (Nat.leb_spec 1 k); [|lia]. cbn [orb andb].
    destruct (Nat.ltb_spec k n); [|lia]. rewrite Bool.andb_true_r. destruct (Nat.eqb_spec (2 * k) n); destruct (Nat.ltb_spec k h); destruct (Nat.leb_spec (h + 1) k); destruct (Nat.ltb_spec (2 * k) n); try lia; reflexivity.
  - assert (Od : Nat.odd n = true) by (unfold Nat.odd; rewrite E; auto). apply Nat.odd_spec in Od. destruct Od as [h Hh]. assert (D : ((n + 1) / 2 = h + 1)%nat) by (replace (n + 1)%nat with ((h + 1) * 2)%nat by lia; apply Nat.div_mul; lia). rewrite D.
    destruct (Nat.eqb_spec k 0); [subst k; cbn [Nat.leb andb orb]; destruct (Nat.leb_spec (h + 1) 0); [lia|reflexivity]|]. destruct (Nat.leb_spec 1 k); [|lia]. cbn [orb andb].
    destruct (Nat.ltb_spec k n); [|lia]. rewrite Bool.andb_true_r. destruct (Nat.eqb_spec (2 * k) n); destruct (Nat.ltb_spec k (h + 1)); destruct (Nat.leb_spec (h + 1) k); destruct (Nat.ltb_spec (2 * k) n); try lia; reflexivity.
Qed.
Definition mask_of (n : nat) (F : nat -> C) (k : nat) : C := if (k =? 0)%nat || (2 * k =? n)%nat then F k else if (2 * k <? n)%nat then Cscal 2 (F k) else C0.
Lemma hilbert_value x : fits (length x) ->
  hilbert x = Ok (map (fun m => Cscal (/ INR (length x)) (IDFT (length x) (mask_of (length x) (DFT (length x) (fun j => RtoC (nth j x 0)))) m)) (seq 0 (length x))).
Proof.
  intros F. set (n := length x). unfold hilbert, zlen. fold n. rewrite new_engine_ok, cdft_raw by (auto; rewrite map_length; auto). cbn [bind fst snd].
  assert (L : length (fftw_forward n (map RtoC x)) = n) by (rewrite forward_tab, map_length, seq_length; auto).
  rewrite cidft_raw by (auto; rewrite indexed_length; lia). cbn [bind fst snd]. rewrite cidft_scale_ok by (auto; rewrite backward_tab, map_length, seq_length; auto). f_equal. rewrite backward_tab, map_map. apply map_tab_ext. intros m M. f_equal. apply IDFT_ext. intros k K.
  rewrite (nth_indexed _ _ k C0) by lia. rewrite hilbert_mask_spec by auto. unfold mask_of. rewrite forward_tab, nth_map_seq by auto. rewrite (DFT_ext n _ (fun j => RtoC (nth j x 0))) by (intros j J; change C0 with (RtoC 0); rewrite map_nth; reflexivity). reflexivity.
Qed.
Theorem C54_hilbert x : fits (length x) -> exists a, hilbert x = Ok a /\ length a = length x /\
  (forall j, (j < length x)%nat -> Re (nth j a C0) = nth j x 0) /\
  (forall k, (k < length x)%nat -> fourier (length x) (fun j => nth j a C0) k =
     if (k =? 0)%nat || (2 * k =? length x)%nat then rfourier x k
     else if (2 * k <? length x)%nat then Cscal 2 (rfourier x k) else C0).
Proof.
  intros F. rewrite hilbert_value by auto. set (n := length x) in *. destruct F as [P B]. pose proof (INR_neq0 _ P) as NZ. set (X := DFT n (fun j => RtoC (nth j x 0))). assert (SX : hermitian_sym n X) by (apply real_sym; auto).
  eexists. split; [reflexivity|]. split; [rewrite map_length, seq_length; auto|]. split.
  - intros m M. rewrite nth_map_seq by auto. cbn [Cscal Re fst].
    assert (E : Cadd (IDFT n (mask_of n X) m) (Cconj (IDFT n (mask_of n X) m)) = Cmul (RtoC 2) (Cmul (RtoC (INR n)) (RtoC (nth m x 0)))).
    { rewrite conj_IDFT, <- IDFT_plus by auto. rewrite <- (IDFT_DFT n (fun j => RtoC (nth j x 0)) m M), <- IDFT_scal. apply IDFT_ext. intros k K. fold X. unfold mask_of. destruct (Nat.eqb_spec k 0) as [->|K0].
      - cbn [Nat.eqb orb]. destruct SX as [S0 _]. rewrite S0. apply C_eq; cbn; ring.
      - destruct SX as [_ S1]. destruct (Nat.eqb_spec (n - k) 0); [lia|]. cbn [orb]. destruct (Nat.eqb_spec (2 * k) n) as [E2|E2].
        + destruct (Nat.eqb_spec (2 * (n - k)) n); [|lia]. rewrite S1, Cconj_invol by lia. apply C_eq; cbn; ring.
        + destruct (Nat.eqb_spec (2 * (n - k)) n); [lia|]. destruct (Nat.ltb_spec (2 * k) n); destruct (Nat.ltb_spec (2 * (n - k)) n); try lia.
          * apply C_eq; cbn; ring.
          * rewrite S1 by lia. apply C_eq; cbn; ring. }
    apply (f_equal Re) in E. cbn [Cadd Cmul Cconj RtoC Re Im fst snd] in E. unfold Re in E at 1 2. cbn [fst snd] in E. apply Rmult_eq_reg_l with (2 * INR n); [|lra]. unfold Re in *. replace (2 * INR n * (/ INR n * fst (IDFT n (mask_of n X) m))) with (fst (IDFT n (mask_of n X) m) + fst (IDFT n (mask_of n X) m)) by (field; auto). rewrite E. ring.
  - intros k K. rewrite <- DFT_fourier. rewrite (DFT_ext _ _ (fun m => Cmul (RtoC (/ INR n)) (IDFT n (mask_of n X) m))) by (intros j J; rewrite nth_map_seq by auto; apply C_eq; cbn; ring).
    transitivity (Cmul (RtoC (/ INR n)) (DFT n (IDFT n (mask_of n X)) k)).
    + unfold DFT. rewrite <- csumf_scal. apply csumf_ext. intros. ring.
    + rewrite DFT_IDFT by auto. assert (EX : X k = rfourier x k) by apply DFT_fourier. rewrite <- EX. change (if (k =? 0)%nat || (2 * k =? n)%nat then X k else if (2 * k <? n)%nat then Cscal 2 (X k) else C0) with (mask_of n X k). generalize (mask_of n X k). intros z. apply C_eq; cbn; field; auto.
Qed.
Example C54_ex : fits (length [1; 0; 2]). Proof. split; cbn; lia. Qed.

(** * C55: discrete cosine transform (FFTW) *)
Lemma dct_raw n x : fits n -> (n <= length x)%nat -> eng_dct (mkEngine (Z.of_nat n) None) x = Ok (mkEngine (Z.of_nat n) (Some DctII), fftw_redft10 n x).
Proof. intros F L. unfold eng_dct. rewrite planned_new, points_ok by auto. unfold execute_r2r. destruct (Nat.ltb_spec (length x) n); [lia|reflexivity]. Qed.
Lemma idct_raw n x : fits n -> (n <= length x)%nat -> eng_idct (mkEngine (Z.of_nat n) None) x = Ok (mkEngine (Z.of_nat n) (Some DctIII), fftw_redft01 n x).
Proof. intros F L. unfold eng_idct. rewrite planned_new, points_ok by auto. unfold execute_r2r. destruct (Nat.ltb_spec (length x) n); [lia|reflexivity]. Qed.
(** VIOLATION of the documented formula: twice the documented value. *)
Theorem C55_dct_actual x : fits (length x) -> exists X, dct x = Ok X /\ tabulates X (length x) (fun k => 2 * dct2 x k).
Proof.
  intros F. unfold dct, zlen. rewrite new_engine_ok, dct_raw by auto. cbn [bind snd]. eexists. split; [reflexivity|]. split; [unfold fftw_redft10; rewrite map_length, seq_length; auto|]. intros k d K. unfold fftw_redft10. rewrite nth_map_seq by auto. unfold dct2. f_equal. apply sumf_ext. intros j _. f_equal. f_equal. unfold Rdiv. ring.
Qed.
Theorem C55_dct_refuted : exists x X, dct x = Ok X /\ nth 0 X 0 <> dct2 x 0.
Proof. destruct (C55_dct_actual [1]) as [X [E [_ T]]]; [split; cbn; lia|]. exists [1], X. split; auto. rewrite T by (cbn; lia). unfold dct2. cbn. rewrite Rmult_0_r, cos_0. lra. Qed.
(** The inverse: the documented formula divided by N. *)
Theorem C55_idct_actual x : fits (length x) -> (2 * Z.of_nat (length x) < 2 ^ 31)%Z -> exists X, idct x = Ok X /\ tabulates X (length x) (fun k => dct3 x k / INR (length x)).
Proof.
  intros F B. unfold idct, zlen. rewrite new_engine_ok, idct_raw by auto. cbn [bind fst snd]. rewrite idct_scale_ok by (auto; unfold fftw_redft01; rewrite map_length, seq_length; auto). eexists. split; [reflexivity|]. unfold fftw_redft01. rewrite map_map. split; [rewrite map_length, seq_length; auto|]. intros k d K. rewrite nth_map_seq by auto. unfold dct3.
  rewrite (sumf_ext (fun j => nth (S j) x 0 * cos (PI * INR (S j) * (INR k + 1 / 2) / INR (length x))) (fun j => nth (S j) x 0 * cos (PI / INR (length x) * INR (S j) * (INR k + 1 / 2)))) by (intros j _; f_equal; f_equal; unfold Rdiv; ring).
  destruct F as [P _]. pose proof (INR_neq0 _ P). field. auto.
Qed.
Lemma dct_kernel n j m : (0 < n)%nat -> (j < n)%nat -> (m < n)%nat ->
  1 + 2 * sumf (fun k => cos (PI / INR n * (INR j + 1 / 2) * INR (S k)) * cos (PI / INR n * INR (S k) * (INR m + 1 / 2))) (n - 1) = if (j =? m)%nat then INR n else 0.
Proof.
  intros H J M. pose proof (INR_neq0 n H) as NZ.
  rewrite <- sumf_scal. rewrite (sumf_ext _ (fun k => cos (INR (S k) * (PI * IZR (Z.of_nat j - Z.of_nat m) / INR n)) + cos (INR (S k) * (PI * IZR (Z.of_nat j + Z.of_nat m + 1) / INR n)))).
  - rewrite sumf_plus. rewrite (cos_sum_int n (Z.of_nat j + Z.of_nat m + 1)) by lia. destruct (Nat.eqb_spec j m) as [->|N].
    + rewrite Z.sub_diag. rewrite (sumf_ext _ (fun _ => 1)) by (intros k _; replace (INR (S k) * (PI * 0 / INR n)) with 0 by (unfold Rdiv; ring); apply cos_0). rewrite sumf_const, minus_INR by lia. simpl (INR 1).
      replace (Z.even (Z.of_nat m + Z.of_nat m + 1)) with false; [ring|]. symmetry. replace (Z.of_nat m + Z.of_nat m + 1)%Z with (1 + 2 * Z.of_nat m)%Z by ring. rewrite Z.even_add_mul_2. reflexivity.
    + rewrite cos_sum_int by lia. replace (Z.of_nat j + Z.of_nat m + 1)%Z with ((Z.of_nat j - Z.of_nat m) + 1 + 2 * Z.of_nat m)%Z by ring. rewrite Z.even_add_mul_2, Z.even_add. change (Z.even 1) with false. destruct (Z.even (Z.of_nat j - Z.of_nat m)); cbn [Bool.eqb]; ring.
  - intros k _. rewrite minus_IZR, !plus_IZR, <- !INR_IZR_INZ.
    replace (INR (S k) * (PI * (INR j - INR m) / INR n)) with (PI / INR n * (INR j + 1 / 2) * INR (S k) - PI / INR n * INR (S k) * (INR m + 1 / 2)) by (field; auto).
    replace (INR (S k) * (PI * (INR j + INR m + 1) / INR n)) with (PI / INR n * (INR j + 1 / 2) * INR (S k) + PI / INR n * INR (S k) * (INR m + 1 / 2)) by (field; auto). rewrite cos_plus, cos_minus. ring.
Qed.
Theorem C55_round_trip x X : fits (length x) -> (2 * Z.of_nat (length x) < 2 ^ 31)%Z -> dct x = Ok X -> idct X = Ok x.
Proof.
  intros F B E. destruct (C55_dct_actual x F) as [X' [E' T]]. assert (X' = X) by congruence. subst X'. assert (L : length X = length x) by apply T.
  destruct (C55_idct_actual X) as [y [EI TI]]; rewrite ?L in *; auto. rewrite EI. f_equal. apply tab_eq in TI. rewrite TI. transitivity (map (fun j => nth j x 0) (seq 0 (length x))); [|symmetry; apply list_tab]. apply map_tab_ext. intros m M. set (n := length x) in *. destruct F as [P _]. pose proof (INR_neq0 _ P) as NZ.
  unfold dct3. rewrite L. destruct T as [_ T]. rewrite T by lia.
  rewrite (sumf_ext _ (fun k => sumf (fun j => nth j x 0 * (2 * (cos (PI / INR n * (INR j + 1 / 2) * INR (S k)) * cos (PI / INR n * INR (S k) * (INR m + 1 / 2))))) n)).
  2:{ intros k K. rewrite T by lia. unfold dct2. fold n. rewrite <- sumf_scal, <- sumf_scal_r. apply sumf_ext. intros j _. ring. }
  rewrite sumf_swap. unfold dct2 at 1. fold n. rewrite <- !sumf_scal.
  rewrite (sumf_ext (fun i => 1 / 2 * (2 * (nth i x 0 * cos (PI / INR n * (INR i + 1 / 2) * INR 0)))) (fun j => nth j x 0 * 1)) by (intros j _; simpl (INR 0); rewrite Rmult_0_r, cos_0; field).
  rewrite <- sumf_plus. rewrite (sumf_single _ n m M).
  - rewrite sumf_scal. rewrite <- Rmult_plus_distr_l. rewrite sumf_scal. rewrite dct_kernel by auto. rewrite Nat.eqb_refl. field. auto.
  - intros j J N. rewrite sumf_scal. rewrite <- Rmult_plus_distr_l. rewrite sumf_scal. rewrite dct_kernel by auto. destruct (Nat.eqb_spec j m); [contradiction|ring].
Qed.
Example C55_ex : fits (length [1; 2; 3]) /\ (2 * Z.of_nat (length [1; 2; 3]) < 2 ^ 31)%Z. Proof. split; [split; cbn; lia|cbn; lia]. Qed.

(** * C80: the spectrum *)
Theorem C80_spectrum x : fits (length x) -> exists s, spectrum x = Ok s /\ tabulates s (length x / 2 + 1) (fun k => Cnorm2 (rfourier x k)).
Proof.
  intros F. destruct (C51_dft x F) as [H [E [L T]]]. unfold spectrum. rewrite nonempty_match by apply F. rewrite E. cbn [bind]. eexists. split; [reflexivity|]. split; [rewrite map_length; auto|]. intros k d K. rewrite (nth_indep _ d (Cmod C0 * Cmod C0)) by (rewrite map_length; lia). rewrite (map_nth (fun z => Cmod z * Cmod z) H C0). rewrite Cmod_sqr, T by auto. reflexivity.
Qed.
(** Parseval: the spectrum determines the energy of the signal. *)
Lemma parseval n (x : nat -> R) : (0 < n)%nat -> sumf (fun k => Cnorm2 (DFT n (fun j => RtoC (x j)) k)) n = INR n * sumf (fun j => x j * x j) n.
Proof.
  intros H. pose proof (IDFT_mul_conj n (fun j => RtoC (x j)) (fun j => RtoC (x j)) 0) as E. apply (f_equal Re) in E. transitivity (Re (IDFT n (fun k => Cmul (DFT n (fun j => RtoC (x j)) k) (Cconj (DFT n (fun j => RtoC (x j)) k))) 0)).
  - unfold IDFT. rewrite Re_csumf. apply sumf_ext. intros k _. rewrite Z.mul_0_r, tw_0. unfold Cnorm2. cbn. ring.
  - rewrite E. rewrite Re_csumf, <- sumf_scal. apply sumf_ext. intros j J. rewrite (csumf_single _ n j J).
    + rewrite tw_sum by lia. destruct (Z.eqb_spec (Z.of_nat 0 - Z.of_nat j + Z.of_nat j) 0); [|lia]. cbn. ring.
    + intros l L N. rewrite tw_sum by lia. destruct (Z.eqb_spec (Z.of_nat 0 - Z.of_nat j + Z.of_nat l) 0); [lia|]. ring.
Qed.
Lemma sumf_half (f : nat -> R) n : (0 < n)%nat -> (forall k, (0 < k < n)%nat -> f (n - k)%nat = f k) ->
  sumf f n = f 0%nat + 2 * sumf (fun i => f (S i)) ((n - 1) / 2) + (if Nat.even n then f (n / 2)%nat else 0).
Proof.
  intros H S. set (h := ((n - 1) / 2)%nat). pose proof (Nat.div_mod (n - 1) 2 ltac:(lia)) as D. fold h in D. assert (Mb : ((n - 1) mod 2 < 2)%nat) by (apply Nat.mod_upper_bound; lia).
  assert (Tail : forall a, (a + h = n)%nat -> sumf (fun i => f (a + i)%nat) h = sumf (fun i => f (Datatypes.S i)) h).
  { intros a A. rewrite (sumf_rev _ h). apply sumf_ext. intros i I. rewrite <- S by lia. f_equal. lia. }
  destruct (Nat.even n) eqn:E.
  - apply Nat.even_spec in E. destruct E as [q Hq]. assert (h = (q - 1)%nat) by lia. assert (n / 2 = q)%nat by (rewrite Hq, Nat.mul_comm; apply Nat.div_mul; lia).
    assert (EN : sumf f n = sumf f (Datatypes.S h + (1 + h))) by (f_equal; lia). rewrite EN, sumf_app, sumf_S_l. rewrite sumf_app. cbn [sumf]. rewrite (sumf_ext (fun i => f (Datatypes.S h + (1 + i))%nat) (fun i => f ((Datatypes.S h + 1) + i)%nat)) by (intros; f_equal; lia). rewrite Tail by lia. replace (Datatypes.S h + 0)%nat with (n / 2)%nat by lia. ring.
  - assert (Od : Nat.odd n = true) by (unfold Nat.odd; rewrite E; auto). apply Nat.odd_spec in Od. destruct Od as [q Hq]. assert (h = q) by lia.
    assert (EN : sumf f n = sumf f (Datatypes.S h + h)) by (f_equal; lia). rewrite EN, sumf_app, sumf_S_l. rewrite Tail by lia. ring.
Qed.
Theorem C80_parseval x s : fits (length x) -> spectrum x = Ok s ->
  nth 0 s 0 + 2 * sumf (fun i => nth (S i) s 0) ((length x - 1) / 2) + (if Nat.even (length x) then nth (length x / 2) s 0 else 0) = INR (length x) * sumf (fun j => nth j x 0 * nth j x 0) (length x).
Proof.
  intros F E. destruct (C80_spectrum x F) as [s' [E' [L T]]]. assert (s' = s) by congruence. subst s'. set (n := length x) in *. destruct F as [P B]. pose proof (Nat.div_mod (n - 1) 2 ltac:(lia)) as D. pose proof (Nat.div_mod n 2 ltac:(lia)) as D2. assert (Mb : (n mod 2 < 2)%nat) by (apply Nat.mod_upper_bound; lia). assert (Mb2 : ((n - 1) mod 2 < 2)%nat) by (apply Nat.mod_upper_bound; lia).
  rewrite !T by lia. rewrite (sumf_ext _ (fun i => Cnorm2 (rfourier x (S i)))) by (intros i I; apply T; lia).
  assert (PE := parseval n (fun j => nth j x 0) P). rewrite <- PE. symmetry.
  rewrite (sumf_ext _ (fun k => Cnorm2 (rfourier x k))) by (intros k _; f_equal; apply DFT_fourier). rewrite sumf_half; auto.
  intros k K. unfold n. rewrite C51_hermitian by (fold n; lia). unfold Cnorm2. cbn. ring.
Qed.
Example C80_ex : Cnorm2 (rfourier [3] 0) = 9.
Proof. unfold rfourier, fourier, Cnorm2. cbn. replace (- (2 * PI * 0 * 0 / 1)) with 0 by field. rewrite cos_0, sin_0. ring. Qed.

(** * C81: Hartley *)
Lemma dht_raw n x : fits n -> (n <= length x)%nat -> eng_dht (mkEngine (Z.of_nat n) None) x = Ok (mkEngine (Z.of_nat n) (Some Hartley), fftw_dht n x).
Proof. intros F L. unfold eng_dht. rewrite planned_new, points_ok by auto. unfold execute_r2r. destruct (Nat.ltb_spec (length x) n); [lia|reflexivity]. Qed.
Theorem C81_hartley x : fits (length x) -> exists H, hartley x = Ok H /\ tabulates H (length x) (hartley_at x).
Proof.
  intros F. unfold hartley, zlen. rewrite new_engine_ok, dht_raw by auto. cbn [bind snd]. eexists. split; [reflexivity|]. split; [unfold fftw_dht; rewrite map_length, seq_length; auto|]. intros k d K. unfold fftw_dht. rewrite nth_map_seq by auto. unfold hartley_at, cas. apply sumf_ext. intros j _. replace (2 * PI / INR (length x) * INR j * INR k) with (2 * PI * INR j * INR k / INR (length x)) by (unfold Rdiv; ring). reflexivity.
Qed.
Lemma cas_kernel n j m : (0 < n)%nat -> (j < n)%nat -> (m < n)%nat ->
  sumf (fun k => cas (2 * PI / INR n * INR j * INR k) * cas (2 * PI / INR n * INR k * INR m)) n = if (j =? m)%nat then INR n else 0.
Proof.
  intros H J M. pose proof (INR_neq0 n H) as NZ.
  rewrite (sumf_ext _ (fun k => Re (tw n (Z.of_nat k * (Z.of_nat j - Z.of_nat m))) + Im (tw n (Z.of_nat k * (Z.of_nat j + Z.of_nat m))))).
  - rewrite sumf_plus, <- Re_csumf, <- Im_csumf. rewrite tw_sum by lia. rewrite tw_sum_mod by auto.
    replace (Im (if ((Z.of_nat j + Z.of_nat m) mod Z.of_nat n =? 0)%Z then RtoC (INR n) else C0)) with 0 by (destruct (((Z.of_nat j + Z.of_nat m) mod Z.of_nat n =? 0)%Z); reflexivity).
    destruct (Nat.eqb_spec j m) as [->|N]; [rewrite Z.sub_diag; cbn; ring|]. destruct (Z.eqb_spec (Z.of_nat j - Z.of_nat m) 0); [lia|cbn; ring].
  - intros k _. unfold tw, cas. cbn [Cexp Re Im fst snd]. rewrite !mult_IZR, minus_IZR, plus_IZR, <- !INR_IZR_INZ.
    replace (2 * PI * (INR k * (INR j - INR m)) / INR n) with (2 * PI / INR n * INR j * INR k - 2 * PI / INR n * INR k * INR m) by (field; auto).
    replace (2 * PI * (INR k * (INR j + INR m)) / INR n) with (2 * PI / INR n * INR j * INR k + 2 * PI / INR n * INR k * INR m) by (field; auto). rewrite cos_minus, sin_plus. ring.
Qed.
(** The Hartley transform is its own inverse up to the factor N. *)
Theorem C81_involution x H : fits (length x) -> hartley x = Ok H -> hartley H = Ok (map (fun v => INR (length x) * v) x).
Proof.
  intros F E. destruct (C81_hartley x F) as [H' [E' [L T]]]. assert (H' = H) by congruence. subst H'. destruct (C81_hartley H) as [y [EI TI]]; [rewrite L; auto|]. rewrite EI. f_equal. rewrite L in TI. apply tab_eq in TI. rewrite TI. set (n := length x) in *. transitivity (map (fun v => INR n * v) (map (fun j => nth j x 0) (seq 0 n))); [|f_equal; symmetry; apply list_tab]. rewrite map_map. apply map_tab_ext. intros m M. unfold hartley_at at 1. rewrite L. destruct F as [P _].
  rewrite (sumf_ext _ (fun k => sumf (fun j => nth j x 0 * (cas (2 * PI / INR n * INR j * INR k) * cas (2 * PI / INR n * INR k * INR m))) n)).
  2:{ intros k K. rewrite T by auto. unfold hartley_at. fold n. rewrite <- sumf_scal_r. apply sumf_ext. intros. ring. }
  rewrite sumf_swap. rewrite (sumf_single _ n m M).
  - rewrite sumf_scal, cas_kernel, Nat.eqb_refl by auto. ring.
  - intros j J N. rewrite sumf_scal, cas_kernel by auto. destruct (Nat.eqb_spec j m); [contradiction|ring].
Qed.
Example C81_ex : hartley_at [5] 0 = 5. Proof. unfold hartley_at, cas. cbn. rewrite Rmult_0_r, cos_0, sin_0. ring. Qed.

(** * C82: the cepstrum *)
(** The input followed by as many zeros. *)
Definition zero_padded (x : list R) : list R := x ++ repeat 0 (length x).
Lemma rfourier_padded x k : rfourier (zero_padded x) k = DFT (2 * length x) (fun j => RtoC (if (j <? length x)%nat then nth j x 0 else 0)) k.
Proof.
  unfold rfourier, zero_padded. rewrite app_length, repeat_length. replace (length x + length x)%nat with (2 * length x)%nat by lia. rewrite <- DFT_fourier. apply DFT_ext. intros j _. f_equal. rewrite <- (firstn_all x) at 1. apply nth_padded. lia.
Qed.
Lemma rlog_zero z : Cmod z = 0 -> rlog (Cmod z) = NonFinite.
Proof. intros E. rewrite E. unfold rlog. destruct (Rlt_dec 0 0); [lra|reflexivity]. Qed.
Lemma mapM_nonfinite {A B} (f : A -> res B) l : (forall x, In x l -> f x <> UB) -> (exists x, In x l /\ f x = NonFinite) -> mapM f l = NonFinite.
Proof.
  induction l as [|a l IH]; intros H [x [I E]]; [destruct I|]. cbn [mapM]. destruct (f a) as [v| |] eqn:Fa; [|exfalso; apply (H a); auto; left; auto|reflexivity]. cbn [bind]. rewrite IH; [reflexivity|intros; apply H; right; auto|]. destruct I as [->|I]; [congruence|]. exists x. auto.
Qed.
(** The real cepstrum of the zero-padded signal: inverse transform of the log magnitude. *)
Theorem C82_cepstrum x : (0 < length x)%nat -> (2 * Z.of_nat (length x) < 2 ^ 31)%Z -> (forall k, (k < 2 * length x)%nat -> rfourier (zero_padded x) k <> C0) ->
  exists c, cepstrum x = Ok c /\ tabulates c (length x)
    (fun m => sumf (fun k => ln (Cmod (rfourier (zero_padded x) k)) * cos (2 * PI * INR k * INR m / INR (2 * length x))) (2 * length x) / INR (2 * length x)).
Proof.
  intros H B NZ. set (N := length x) in *. assert (F : fits (2 * N)) by (split; lia). unfold cepstrum. rewrite nonempty_match by auto. cbv zeta. fold N.
  rewrite !padded_ok by (unfold N; lia). cbn [bind]. replace (2 * Z.of_nat N)%Z with (Z.of_nat (2 * N)) by lia. rewrite new_engine_ok by auto. rewrite spectra_prep by (auto; unfold N in *; lia). cbn [bind fst snd].
  set (S := DFT (2 * N) (fun j => RtoC (if (j <? N)%nat then nth j x 0 else 0))). assert (ES : forall k, rfourier (zero_padded x) k = S k) by (intros; apply rfourier_padded).
  assert (D : (2 * N / 2 = N)%nat) by (rewrite Nat.mul_comm; apply Nat.div_mul; lia).
  rewrite (mapM_map _ (fun z => RtoC (ln (Cmod z)))).
  - cbn [bind]. rewrite map_map. rewrite idft_raw by (auto; rewrite map_length, seq_length; lia). cbn [bind fst snd]. rewrite idft_scale_ok by (auto; apply c2r_length). cbn [bind].
    assert (SS : hermitian_sym (2 * N) S) by (apply real_sym; lia).
    assert (HS : hermitian_sym (2 * N) (fun k => RtoC (ln (Cmod (S k))))). { destruct SS as [S0 S1]. split; [apply C_eq; cbn; ring|]. intros k K. rewrite S1 by auto. rewrite Cmod_conj. apply C_eq; cbn; ring. }
    rewrite (c2r_tab (2 * N) (fun k => RtoC (ln (Cmod (S k))))) by auto. rewrite map_map, firstn_tab by lia. eexists. split; [reflexivity|]. split; [rewrite map_length, seq_length; auto|]. intros m d M. rewrite nth_map_seq by auto. f_equal. unfold IDFT. rewrite Re_csumf. apply sumf_ext. intros k K. rewrite ES. unfold tw. cbn [Cmul RtoC Cexp Re Im fst snd]. rewrite mult_IZR, <- !INR_IZR_INZ. replace (2 * PI * (INR k * INR m) / INR (2 * N)) with (2 * PI * INR k * INR m / INR (2 * N)) by (unfold Rdiv; ring). ring.
  - intros z I. apply in_map_iff in I. destruct I as [k [<- K]]. apply in_seq in K. rewrite rlog_ok; [reflexivity|]. apply Cmod_pos. rewrite <- ES. apply NZ. lia.
Qed.
(** A zero anywhere in the spectrum makes the result non-finite. *)
Theorem C82_cepstrum_nonfinite x k : (0 < length x)%nat -> (2 * Z.of_nat (length x) < 2 ^ 31)%Z -> (k <= length x)%nat -> rfourier (zero_padded x) k = C0 -> cepstrum x = NonFinite.
Proof.
  intros H B K Z0. set (N := length x) in *. assert (F : fits (2 * N)) by (split; lia). unfold cepstrum. rewrite nonempty_match by auto. cbv zeta. fold N.
  rewrite !padded_ok by (unfold N; lia). cbn [bind]. replace (2 * Z.of_nat N)%Z with (Z.of_nat (2 * N)) by lia. rewrite new_engine_ok by auto. rewrite spectra_prep by (auto; unfold N in *; lia). cbn [bind fst snd].
  assert (D : (2 * N / 2 = N)%nat) by (rewrite Nat.mul_comm; apply Nat.div_mul; lia).
  rewrite mapM_nonfinite; [reflexivity| |].
  - intros z _. unfold rlog. destruct (Rlt_dec 0 (Cmod z)); cbn [bind]; discriminate.
  - exists C0. split; [|rewrite rlog_zero by apply Cmod_0; reflexivity]. rewrite <- Z0, rfourier_padded. fold N. apply (in_map (DFT (2 * N) (fun j => RtoC (if (j <? N)%nat then nth j x 0 else 0)))). apply in_seq. lia.
Qed.

Lemma single_padded v k : rfourier (zero_padded [v]) k = RtoC v.
Proof. rewrite rfourier_padded. unfold DFT, tw. cbn [length csumf Nat.mul Nat.add Nat.ltb Nat.leb nth]. rewrite Z.mul_0_l. cbn [Z.opp]. rewrite Rmult_0_r. unfold Rdiv. rewrite Rmult_0_l. apply C_eq; cbn; rewrite ?cos_0, ?sin_0; ring. Qed.
Example C82_ex : forall k, (k < 2)%nat -> rfourier (zero_padded [1]) k <> C0.
Proof. intros k _. rewrite single_padded. intros E. injection E. lra. Qed.
Example C82_ex_nonfinite : rfourier (zero_padded [0]) 1 = C0. Proof. apply single_padded. Qed.
(** VIOLATION of the documented formula, with or without the padding. *)
Theorem C82_documentation_refuted : exists x c, cepstrum x = Ok c /\ nth 0 c 0 <> documented_cepstrum x 0 /\ nth 0 c 0 <> documented_cepstrum (zero_padded x) 0.
Proof.
  set (e := exp 1). assert (E1 : ln e = 1) by apply ln_exp. assert (Pe : 0 < e) by apply exp_pos.
  destruct (C82_cepstrum [e]) as [c [E [_ T]]]; cbn [length]; try lia.
  { intros k _. rewrite single_padded. intros H. injection H. lra. }
  exists [e], c. split; auto. rewrite T by (cbn; lia).
  assert (M : Cmod (RtoC e) = e) by (rewrite Cmod_RtoC, Rabs_right; lra). assert (N2 : Cnorm2 (RtoC e) = e * e) by (unfold Cnorm2; cbn; ring). assert (L2 : ln (e * e) = 2) by (rewrite ln_mult, E1; lra).
  assert (U : rfourier [e] 0 = RtoC e) by (unfold rfourier, fourier; apply C_eq; cbn; replace (- (2 * PI * 0 * 0 / 1)) with 0 by field; rewrite ?cos_0, ?sin_0; ring).
  replace (sumf _ _ / _) with 1.
  - split.
    + unfold documented_cepstrum. cbn [length csumf]. rewrite U, N2, L2. unfold Cnorm2. cbn. replace (2 * PI * 0 * 0 / 1) with 0 by field. rewrite cos_0, sin_0. intros H. field_simplify in H. lra.
    + unfold documented_cepstrum, zero_padded. cbn [length csumf app repeat]. change [e; 0] with (zero_padded [e]). rewrite !single_padded, N2, L2. unfold Cnorm2. cbn. replace (2 * PI * 0 * 0 / (1 + 1)) with 0 by field. replace (2 * PI * 1 * 0 / (1 + 1)) with 0 by field. rewrite cos_0, sin_0. intros H. field_simplify in H. lra.
  - cbn [length Nat.mul Nat.add sumf]. rewrite !single_padded, M, E1. simpl (INR 0). simpl (INR 1). simpl (INR 2). replace (2 * PI * 0 * 0 / (1 + 1)) with 0 by field. replace (2 * PI * 1 * 0 / (1 + 1)) with 0 by field. rewrite cos_0. field.
Qed.

(** * C56: one engine, many calls *)
Definition kind_of (c : call) : fft_plan :=
  match c with CallDft _ => Forward | CallIdft _ => Backward | CallRDft _ => R2C | CallRIdft _ => C2R | CallDht _ => Hartley | CallDct _ => DctII | CallIdct _ => DctIII end.
(** Calls with the same argument types share an executor. *)
Definition family_of (k : fft_plan) : nat := match k with Forward | Backward => 0 | R2C => 1 | C2R => 2 | Hartley | DctII | DctIII => 3 end%nat.
(** The call of kind [k] on the data of [c]. *)
Definition as_kind (k : fft_plan) (c : call) : call :=
  match c with
  | CallDft x | CallIdft x => match k with Backward => CallIdft x | _ => CallDft x end
  | CallDht x | CallDct x | CallIdct x => match k with DctII => CallDct x | DctIII => CallIdct x | _ => CallDht x end
  | _ => c
  end.
Definition result_of (r : res (engine * (list C + list R))) : res (list C + list R) := rmap snd r.
Lemma run_call_keeps e c e' out k : plan e = Some k -> run_call e c = Ok (e', out) -> e' = e.
Proof.
  intros P E. assert (Q : forall q, planned e q = Some k) by (intros; unfold planned; rewrite P; auto). assert (R1 : mkEngine (nfft e) (Some k) = e) by (destruct e; cbn in *; congruence).
  destruct c as [x|x|x|x|x|x|x]; cbn [run_call] in E; unfold eng_cdft, eng_cidft, eng_dft, eng_idft, eng_dht, eng_dct, eng_idct in E; rewrite Q in E.
  1,2: destruct (execute_dft (points e) (Some k) x); try discriminate.
  3: destruct (execute_r2c (points e) (Some k) x); try discriminate.
  4: destruct (execute_c2r (points e) (Some k) x); try discriminate.
  5,6,7: destruct (execute_r2r (points e) (Some k) x); try discriminate.
  all: cbn [bind fst snd] in E; injection E as <- _; auto.
Qed.
Lemma run_call_first n c e' out : run_call (new_engine n) c = Ok (e', out) -> e' = mkEngine (to_int32 n) (Some (kind_of c)) /\ (0 < to_int32 n)%Z.
Proof.
  intros E. unfold new_engine in E. set (e := mkEngine (to_int32 n) None) in *. assert (Q : forall q, planned e q = if (0 <? to_int32 n)%Z then Some q else None) by reflexivity.
  destruct (Z.ltb_spec 0 (to_int32 n)) as [P|P].
  - split; auto. destruct c as [x|x|x|x|x|x|x]; cbn [run_call kind_of] in *; unfold eng_cdft, eng_cidft, eng_dft, eng_idft, eng_dht, eng_dct, eng_idct in E; rewrite Q in E.
    1,2: unfold execute_dft in E; destruct (length x <? points e)%nat; try discriminate; cbn [bind fst snd] in E; injection E as <- _; reflexivity.
    1: unfold execute_r2c in E; destruct (length x <? points e)%nat; try discriminate; cbn [bind fst snd] in E; injection E as <- _; reflexivity.
    1: unfold execute_c2r in E; destruct (length x <? points e / 2 + 1)%nat; try discriminate; cbn [bind fst snd] in E; injection E as <- _; reflexivity.
    all: unfold execute_r2r in E; destruct (length x <? points e)%nat; try discriminate; cbn [bind fst snd] in E; injection E as <- _; reflexivity.
  - exfalso. destruct c as [x|x|x|x|x|x|x]; cbn [run_call] in E; unfold eng_cdft, eng_cidft, eng_dft, eng_idft, eng_dht, eng_dct, eng_idct in E; rewrite Q in E.
    1,2: unfold execute_dft in E; destruct (length x <? points e)%nat; discriminate.
    1: unfold execute_r2c in E; destruct (length x <? points e)%nat; discriminate.
    1: unfold execute_c2r in E; destruct (length x <? points e / 2 + 1)%nat; discriminate.
    all: unfold execute_r2r in E; destruct (length x <? points e)%nat; discriminate.
Qed.
Lemma run_calls_keep k h : forall e e', plan e = Some k -> run_calls e h = Ok e' -> e' = e.
Proof.
  induction h as [|c h IH]; intros e e' P E; cbn [run_calls] in E; [congruence|]. destruct (run_call e c) as [[e1 o1]| |] eqn:E1; try discriminate. cbn [bind fst] in E. rewrite (run_call_keeps e c e1 o1 k P E1) in E. apply (IH e e'); auto.
Qed.
Lemma run_calls_state n d h e : run_calls (new_engine n) (d :: h) = Ok e -> e = mkEngine (to_int32 n) (Some (kind_of d)) /\ (0 < to_int32 n)%Z.
Proof.
  intros E. cbn [run_calls] in E. destruct (run_call (new_engine n) d) as [[e1 o1]| |] eqn:E1; try discriminate. apply run_call_first in E1. destruct E1 as [-> P]. split; auto. cbn [bind fst] in E. apply (run_calls_keep (kind_of d) h) in E; auto.
Qed.
(** VIOLATION: after a first call [d], every later call performs the transform of [d] if its argument
    types allow, and is undefined otherwise. *)
Theorem C56_actual n d h c e : run_calls (new_engine n) (d :: h) = Ok e ->
  result_of (run_call e c) = if (family_of (kind_of d) =? family_of (kind_of c))%nat then result_of (run_call (new_engine n) (as_kind (kind_of d) c)) else UB.
Proof.
  intros E. apply run_calls_state in E. destruct E as [-> P]. unfold new_engine. set (N := to_int32 n) in *.
  assert (Q : forall q, planned (mkEngine N None) q = Some q) by (intros; unfold planned; cbn; destruct (Z.ltb_spec 0 N); [auto|lia]).
  assert (Q2 : forall k q, planned (mkEngine N (Some k)) q = Some k) by reflexivity.
  destruct d; destruct c; cbn [kind_of family_of as_kind Nat.eqb run_call]; unfold eng_cdft, eng_cidft, eng_dft, eng_idft, eng_dht, eng_dct, eng_idct; rewrite ?Q, ?Q2; unfold execute_dft, execute_r2c, execute_c2r, execute_r2r, points; cbn [nfft];
    match goal with |- context [if ?b then _ else _] => destruct b end; reflexivity.
Qed.
(** The property holds for engines used for one kind of transform only. *)
Theorem C56_one_kind n h c e : (forall d, In d h -> kind_of d = kind_of c) -> run_calls (new_engine n) h = Ok e ->
  result_of (run_call e c) = result_of (run_call (new_engine n) c).
Proof.
  intros H E. destruct h as [|d h]; [cbn in E; congruence|]. rewrite (C56_actual n d h c e E). rewrite (H d (or_introl eq_refl)), Nat.eqb_refl. destruct c; reflexivity.
Qed.
(** ... and fails otherwise: a forward transform after an inverse one is an inverse one. *)
Theorem C56_refuted : exists n x y e, run_calls (new_engine n) [CallIdft x] = Ok e /\ result_of (run_call e (CallDft y)) <> result_of (run_call (new_engine n) (CallDft y)).
Proof.
  set (y := [C0; C1; C0; C0]). assert (F : fits 4) by (split; cbn; lia).
  exists 4%Z, y, y. change 4%Z with (Z.of_nat 4). rewrite (new_engine_ok 4 F). cbn [run_calls run_call]. rewrite cidft_raw by (auto; cbn; lia). cbn [bind fst]. eexists. split; [reflexivity|]. rewrite cdft_raw by (auto; cbn; lia).
  unfold eng_cdft. cbn [planned plan]. rewrite points_ok. unfold execute_dft. change (length y <? 4)%nat with false. cbn [bind fst snd result_of rmap]. intros E.
  assert (E1 : nth 1 (fftw_backward 4 y) C0 = nth 1 (fftw_forward 4 y) C0) by (apply (f_equal (fun r => match r with Ok (inl l) => nth 1 l C0 | _ => C0 end)) in E; exact E). rewrite backward_tab, forward_tab, !nth_map_seq in E1 by lia. unfold IDFT, DFT in E1. apply (f_equal Im) in E1. rewrite !Im_csumf in E1. cbn [sumf y nth] in E1. unfold tw in E1. cbn [Cmul Cexp Re Im fst snd C0 C1] in E1. simpl in E1.
  replace (2 * PI * 1 / (1 + 1 + 1 + 1)) with (PI / 2) in E1 by field. replace (2 * PI * -1 / (1 + 1 + 1 + 1)) with (- (PI / 2)) in E1 by field. rewrite sin_neg, cos_neg, sin_PI2, cos_PI2 in E1. lra.
Qed.
Example C56_ex : exists e, run_calls (new_engine 2) [CallDct [1; 2]; CallDct [3; 4]] = Ok e. Proof. eexists. reflexivity. Qed.
Print Assumptions C51_cdft.
Print Assumptions C51_complex_round_trip.
Print Assumptions C51_complex_round_trip_back.
Print Assumptions C51_dft.
Print Assumptions C51_sizes.
Print Assumptions C51_hermitian.
Print Assumptions C51_real_round_trip.
Print Assumptions C51_odd_length.
Print Assumptions C52_conv.
Print Assumptions C53_xcorr_raw.
Print Assumptions C53_biased_actual.
Print Assumptions C53_biased_refuted.
Print Assumptions C53_unbiased_actual.
Print Assumptions C53_unbiased_refuted.
Print Assumptions C53_autocorrelation.
Print Assumptions C54_hilbert.
Print Assumptions C55_dct_actual.
Print Assumptions C55_dct_refuted.
Print Assumptions C55_idct_actual.
Print Assumptions C55_round_trip.
Print Assumptions C80_spectrum.
Print Assumptions C80_parseval.
Print Assumptions C81_hartley.
Print Assumptions C81_involution.
Print Assumptions C82_cepstrum.
Print Assumptions C82_cepstrum_nonfinite.
Print Assumptions C82_documentation_refuted.
Print Assumptions C56_actual.
Print Assumptions C56_one_kind.
Print Assumptions C56_refuted.
