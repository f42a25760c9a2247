(** The fast cosine transforms of the PFFFT back end are the cosine transforms. *)
From Verif Require Import Base BaseProofs RealBase RealBaseProofs PffftModel FourierProofs.
From Verif Require Import Cplx.
From Coq Require Import Lia.
Local Open Scope res_scope.
Local Open Scope R_scope.

(** * Arrays *)
Lemma store_nth {A} (l : list A) i v : (i < length l)%nat -> exists l', store l i v = Ok l' /\ length l' = length l /\
  nth i l' v = v /\ (forall d, nth i l' d = v) /\ forall j d, j <> i -> nth j l' d = nth j l d.
Proof.
  revert i; induction l as [|x l IH]; intros i Hi; cbn [length] in Hi; [lia|]. destruct i as [|i].
  - exists (v :: l). cbn. repeat split; auto. intros [|j] d Hj; [congruence|reflexivity].
  - destruct (IH i ltac:(lia)) as [l' [E [L [N [N' O]]]]]. exists (x :: l'). cbn [store]. rewrite E. cbn. repeat split; auto. intros [|j] d Hj; auto.
Qed.
Lemma load_nth {A} (l : list A) i d : (i < length l)%nat -> load l i = Ok (nth i l d).
Proof. intros H. unfold load. rewrite (nth_error_nth' l d H). reflexivity. Qed.
Lemma for_range_inv {S} (P : nat -> S -> Prop) n body s : P 0%nat s ->
  (forall i s, (i < n)%nat -> P i s -> exists s', body i s = Ok s' /\ P (Datatypes.S i) s') -> exists s', for_range n body s = Ok s' /\ P n s'.
Proof.
  intros H0 HS. induction n as [|n IH]; cbn [for_range]; [eauto|]. destruct IH as [s1 [E1 P1]]; [intros; apply HS; auto; lia|]. rewrite E1. cbn [bind]. apply HS; auto; lia.
Qed.

(** * The recurrences *)
Definition D (n : nat) (x : nat -> R) (k : nat) : R := sumf (fun j => x j * cos ((INR j + 1 / 2) * PI * INR k / INR n)) n.
Definition I3 (n : nat) (x : nat -> R) (k : nat) : R := sumf (fun j => x j * cos (PI * INR j * (INR k + 1 / 2) / INR n)) n.
Lemma D_ext n x y k : (forall j, (j < n)%nat -> x j = y j) -> D n x k = D n y k.
Proof. intros H. apply sumf_ext. intros j J. rewrite H; auto. Qed.
Lemma I3_ext n x y k : (forall j, (j < n)%nat -> x j = y j) -> I3 n x k = I3 n y k.
Proof. intros H. apply sumf_ext. intros j J. rewrite H; auto. Qed.
Lemma sumf_fold f h : sumf f (2 * h) = sumf (fun i => f i + f (2 * h - 1 - i)%nat) h.
Proof.
  replace (2 * h)%nat with (h + h)%nat at 1 by lia. rewrite sumf_app, (sumf_rev (fun i => f (h + i)%nat)), <- sumf_plus. apply sumf_ext. intros i Hi. do 2 f_equal. lia.
Qed.
Lemma half_angle h i : (i < h)%nat -> 0 < cos ((INR i + 1 / 2) * PI / INR (2 * h)).
Proof.
  intros H. assert (0 < INR h) by (apply lt_0_INR; lia). assert (INR i + 1 <= INR h) by (rewrite <- S_INR; apply le_INR; lia). pose proof (pos_INR i). pose proof PI_RGT_0.
  rewrite mult_INR. simpl (INR 2). apply cos_gt_0.
  - apply Rlt_trans with 0; [lra|]. apply Rdiv_lt_0_compat; nra.
  - apply Rmult_lt_reg_r with ((1 + 1) * INR h); [nra|]. unfold Rdiv. rewrite Rmult_assoc, Rinv_l by nra. nra.
Qed.
Lemma mirror h i : (i < h)%nat -> INR (2 * h - 1 - i) + 1 / 2 = INR (2 * h) - (INR i + 1 / 2).
Proof. intros H. rewrite !minus_INR by lia. simpl (INR 1). lra. Qed.
Lemma INR_Z n : INR n = IZR (Z.of_nat n). Proof. apply INR_IZR_INZ. Qed.
Lemma cos_mirror h i k : (i < h)%nat -> cos ((INR (2 * h - 1 - i) + 1 / 2) * PI * INR k / INR (2 * h)) = (if Nat.even k then 1 else -1) * cos ((INR i + 1 / 2) * PI * INR k / INR (2 * h)).
Proof.
  intros H. rewrite mirror by auto. assert (NZ : INR (2 * h) <> 0) by (apply INR_neq0; lia).
  replace ((INR (2 * h) - (INR i + 1 / 2)) * PI * INR k / INR (2 * h)) with (PI * IZR (Z.of_nat k) - (INR i + 1 / 2) * PI * INR k / INR (2 * h)) by (rewrite <- INR_Z; field; auto).
  rewrite cos_minus, cos_PI_Z, sin_PI_Z. replace (Z.even (Z.of_nat k)) with (Nat.even k); [ring|]. symmetry. destruct (Nat.even k) eqn:E.
  - apply Nat.even_spec in E. destruct E as [m ->]. rewrite Nat2Z.inj_mul. apply Z.even_spec. exists (Z.of_nat m). lia.
  - assert (O : Nat.odd k = true) by (unfold Nat.odd; rewrite E; auto). apply Nat.odd_spec in O. destruct O as [m ->]. apply Bool.negb_true_iff. rewrite Z.negb_even. apply Z.odd_spec. exists (Z.of_nat m). lia.
Qed.
Definition low (len : nat) (x : nat -> R) (i : nat) : R := x i + x (len - 1 - i)%nat.
Definition high (len : nat) (x : nat -> R) (i : nat) : R := (x i - x (len - 1 - i)%nat) / (cos ((INR i + 1 / 2) * PI / INR len) * 2).
Lemma D_even h x m : D (2 * h) x (2 * m) = D h (low (2 * h) x) m.
Proof.
  unfold D. rewrite sumf_fold. apply sumf_ext. intros i H. rewrite cos_mirror by auto. assert (NZ : INR h <> 0) by (apply INR_neq0; lia).
  replace (Nat.even (2 * m)) with true by (symmetry; apply Nat.even_spec; exists m; auto). replace ((INR i + 1 / 2) * PI * INR (2 * m) / INR (2 * h)) with ((INR i + 1 / 2) * PI * INR m / INR h) by (rewrite !mult_INR; simpl (INR 2); field; auto). unfold low. ring.
Qed.
Lemma D_odd h x m : D (2 * h) x (2 * m + 1) = D h (high (2 * h) x) m + D h (high (2 * h) x) (S m).
Proof.
  unfold D. rewrite sumf_fold, <- sumf_plus. apply sumf_ext. intros i H. rewrite cos_mirror by auto. assert (NZ : INR h <> 0) by (apply INR_neq0; lia). pose proof (half_angle h i H) as P.
  replace (Nat.even (2 * m + 1)) with false by (symmetry; rewrite Nat.add_comm, Nat.even_add_mul_2; reflexivity). unfold high. set (phi := (INR i + 1 / 2) * PI / INR (2 * h)) in *.
  replace ((INR i + 1 / 2) * PI * INR (2 * m + 1) / INR (2 * h)) with (2 * INR m * phi + phi) by (unfold phi; rewrite plus_INR, !mult_INR; simpl (INR 2); simpl (INR 1); field; auto).
  replace ((INR i + 1 / 2) * PI * INR m / INR h) with (2 * INR m * phi + phi - phi) by (unfold phi; rewrite !mult_INR; simpl (INR 2); field; auto).
  replace ((INR i + 1 / 2) * PI * INR (S m) / INR h) with (2 * INR m * phi + phi + phi) by (unfold phi; rewrite S_INR, !mult_INR; simpl (INR 2); field; auto).
  rewrite (cos_minus (2 * INR m * phi + phi)), (cos_plus (2 * INR m * phi + phi) phi). field. lra.
Qed.
Lemma cos_half_odd i : cos ((INR i + 1 / 2) * PI) = 0.
Proof. replace ((INR i + 1 / 2) * PI) with (PI * IZR (Z.of_nat i) + PI / 2) by (rewrite <- INR_Z; lra). rewrite cos_plus, sin_PI_Z, cos_PI2. ring. Qed.
Lemma D_top h x : (0 < h)%nat -> D h x h = 0.
Proof. intros H. unfold D. rewrite (sumf_ext _ (fun _ => 0)); [apply sumf_zero|]. intros j _. assert (NZ : INR h <> 0) by (apply INR_neq0; lia). replace ((INR j + 1 / 2) * PI * INR h / INR h) with ((INR j + 1 / 2) * PI) by (field; auto). rewrite cos_half_odd. ring. Qed.

(** * Forward *)
Lemma forward_split_loop v vo t o h : (0 < h)%nat -> (vo + 2 * h <= length v)%nat -> (o + 2 * h <= length t)%nat ->
  exists t', for_range h (forward_split v vo o (2 * h)) t = Ok t' /\ length t' = length t /\
    (forall i, (i < h)%nat -> nth (o + i) t' 0 = low (2 * h) (fun j => nth (vo + j) v 0) i) /\
    (forall i, (i < h)%nat -> nth (o + h + i) t' 0 = high (2 * h) (fun j => nth (vo + j) v 0) i) /\
    (forall j, (j < o)%nat \/ (o + 2 * h <= j)%nat -> nth j t' 0 = nth j t 0).
Proof.
  intros H LV LT. assert (Dh : (2 * h / 2 = h)%nat) by (rewrite Nat.mul_comm; apply Nat.div_mul; lia). set (x := fun j => nth (vo + j) v 0).
  destruct (for_range_inv (fun n t' => length t' = length t /\ (forall i, (i < n)%nat -> nth (o + i) t' 0 = low (2 * h) x i) /\
     (forall i, (i < n)%nat -> nth (o + h + i) t' 0 = high (2 * h) x i) /\ (forall j, (j < o)%nat \/ (o + 2 * h <= j)%nat -> nth j t' 0 = nth j t 0)) h (forward_split v vo o (2 * h)) t) as [t' [E P]].
  - repeat split; auto; intros i Hi; lia.
  - intros i s Hi [L [Plo [Phi Pout]]]. unfold forward_split. rewrite Dh.
    rewrite (load_nth v (vo + i) 0) by lia. cbn [bind]. rewrite (load_nth v (vo + (2 * h - 1 - i)) 0) by lia. cbn [bind].
    destruct (store_nth s (o + i) (nth (vo + i) v 0 + nth (vo + (2 * h - 1 - i)) v 0)) as [s1 [E1 [L1 [_ [N1 O1]]]]]; [lia|]. rewrite E1. cbn [bind].
    rewrite rdiv_ok by (pose proof (half_angle h i Hi); lra). cbn [bind].
    destruct (store_nth s1 (o + (i + h)) ((nth (vo + i) v 0 - nth (vo + (2 * h - 1 - i)) v 0) / (cos ((INR i + 1 / 2) * PI / INR (2 * h)) * 2))) as [s2 [E2 [L2 [_ [N2 O2]]]]]; [lia|]. rewrite E2. exists s2. split; auto. repeat split; [lia| | |].
    + intros k Hk. rewrite O2 by lia. destruct (Nat.eq_dec k i) as [->|N]; [rewrite N1; reflexivity|]. rewrite O1 by lia. apply Plo. lia.
    + intros k Hk. destruct (Nat.eq_dec k i) as [->|N]; [replace (o + h + i)%nat with (o + (i + h))%nat by lia; rewrite N2; reflexivity|]. rewrite O2, O1 by lia. apply Phi. lia.
    + intros j Hj. rewrite O2, O1 by lia. apply Pout. auto.
  - exists t'. tauto.
Qed.
Lemma forward_merge_loop t o v vo h : (0 < h)%nat -> (vo + 2 * h <= length v)%nat -> (o + 2 * h <= length t)%nat ->
  exists v', for_range (h - 1) (forward_merge t o vo (2 * h)) v = Ok v' /\ length v' = length v /\
    (forall i, (i < h - 1)%nat -> nth (vo + 2 * i) v' 0 = nth (o + i) t 0) /\
    (forall i, (i < h - 1)%nat -> nth (vo + (2 * i + 1)) v' 0 = nth (o + h + i) t 0 + nth (o + h + S i) t 0) /\
    (forall j, (j < vo)%nat \/ (vo + 2 * (h - 1) <= j)%nat -> nth j v' 0 = nth j v 0).
Proof.
  intros H LV LT. assert (Dh : (2 * h / 2 = h)%nat) by (rewrite Nat.mul_comm; apply Nat.div_mul; lia).
  destruct (for_range_inv (fun n v' => length v' = length v /\ (forall i, (i < n)%nat -> nth (vo + 2 * i) v' 0 = nth (o + i) t 0) /\
     (forall i, (i < n)%nat -> nth (vo + (2 * i + 1)) v' 0 = nth (o + h + i) t 0 + nth (o + h + S i) t 0) /\ (forall j, (j < vo)%nat \/ (vo + 2 * n <= j)%nat -> nth j v' 0 = nth j v 0)) (h - 1) (forward_merge t o vo (2 * h)) v) as [v' [E P]].
  - repeat split; auto; intros i Hi; lia.
  - intros i s Hi [L [Pe [Po Pout]]]. unfold forward_merge. rewrite Dh.
    rewrite (load_nth t (o + i) 0) by lia. cbn [bind]. destruct (store_nth s (vo + (i * 2 + 0)) (nth (o + i) t 0)) as [s1 [E1 [L1 [_ [N1 O1]]]]]; [lia|]. rewrite E1. cbn [bind].
    rewrite (load_nth t (o + (i + h)) 0) by lia. cbn [bind]. rewrite (load_nth t (o + (i + h + 1)) 0) by lia. cbn [bind].
    destruct (store_nth s1 (vo + (i * 2 + 1)) (nth (o + (i + h)) t 0 + nth (o + (i + h + 1)) t 0)) as [s2 [E2 [L2 [_ [N2 O2]]]]]; [lia|]. rewrite E2. exists s2. split; auto. repeat split; [lia| | |].
    + intros k Hk. rewrite O2 by lia. destruct (Nat.eq_dec k i) as [->|N]; [replace (vo + 2 * i)%nat with (vo + (i * 2 + 0))%nat by lia; apply N1|]. rewrite O1 by lia. apply Pe. lia.
    + intros k Hk. destruct (Nat.eq_dec k i) as [->|N]; [replace (vo + (2 * i + 1))%nat with (vo + (i * 2 + 1))%nat by lia; rewrite N2; f_equal; f_equal; lia|]. rewrite O2, O1 by lia. apply Po. lia.
    + intros j Hj. rewrite O2, O1 by lia. apply Pout. lia.
  - exists v'. tauto.
Qed.
(** The memory effect of one level: what is in the segment [vo, vo+len) of v and what is left alone. *)
Definition fwd_spec (len : nat) (f : (nat -> R) -> nat -> R) (v : list R) (vo : nat) (t : list R) (o : nat) (r : res (list R * list R)) : Prop :=
  exists v' t', r = Ok (v', t') /\ length v' = length v /\ length t' = length t /\
    (forall i, (i < len)%nat -> nth (vo + i) v' 0 = f (fun j => nth (vo + j) v 0) i) /\
    (forall j, (j < vo)%nat \/ (vo + len <= j)%nat -> nth j v' 0 = nth j v 0) /\
    (forall j, (j < o)%nat \/ (o + len <= j)%nat -> nth j t' 0 = nth j t 0).
Lemma forward_pow2 k : forall fuel v vo t o, (k < fuel)%nat -> (vo + 2 ^ k <= length v)%nat -> (o + 2 ^ k <= length t)%nat ->
  fwd_spec (2 ^ k) (D (2 ^ k)) v vo t o (forward_transform fuel v vo t o (2 ^ k)).
Proof.
  induction k as [|k IH]; intros fuel v vo t o Hf LV LT.
  - destruct fuel; [lia|]. cbn. exists v, t. repeat split; auto. intros i Hi. assert (i = 0)%nat by lia. subst i. unfold D. cbn. replace ((0 + 1 / 2) * PI * 0 / 1) with 0 by field. rewrite cos_0. ring.
  - destruct fuel as [|fuel]; [lia|]. pose proof (Nat.pow_nonzero 2 k ltac:(lia)) as NZ. set (h := (2 ^ k)%nat) in *. assert (EL : (2 ^ S k = 2 * h)%nat) by reflexivity. rewrite EL in *.
    assert (Dh : (2 * h / 2 = h)%nat) by (rewrite Nat.mul_comm; apply Nat.div_mul; lia). cbn [forward_transform]. destruct (Nat.eqb_spec (2 * h) 1); [lia|]. rewrite Dh.
    destruct (forward_split_loop v vo t o h) as [t1 [E1 [L1 [Plo [Phi Po1]]]]]; try lia. rewrite E1. cbn [bind].
    destruct (IH fuel t1 o v vo) as [t2 [v2 [E2 [L2 [L2v [Q2 [O2 O2v]]]]]]]; try lia. rewrite E2. cbn [bind fst snd].
    destruct (IH fuel t2 (o + h)%nat v2 vo) as [t3 [v3 [E3 [L3 [L3v [Q3 [O3 O3v]]]]]]]; try lia. rewrite E3. cbn [bind fst snd].
    destruct (forward_merge_loop t3 o v3 vo h) as [v4 [E4 [L4 [Me [Mo O4]]]]]; try lia. rewrite E4. cbn [bind].
    rewrite (load_nth t3 (o + (h - 1)) 0) by lia. cbn [bind]. destruct (store_nth v4 (vo + (2 * h - 2)) (nth (o + (h - 1)) t3 0)) as [v5 [E5 [L5 [_ [N5 O5]]]]]; [lia|]. rewrite E5. cbn [bind].
    rewrite (load_nth t3 (o + (2 * h - 1)) 0) by lia. cbn [bind]. destruct (store_nth v5 (vo + (2 * h - 1)) (nth (o + (2 * h - 1)) t3 0)) as [v6 [E6 [L6 [_ [N6 O6]]]]]; [lia|]. rewrite E6. cbn [bind].
    exists v6, t3. split; [reflexivity|]. set (x := fun j => nth (vo + j) v 0) in *.
    assert (TL : forall i, (i < h)%nat -> nth (o + i) t3 0 = D h (low (2 * h) x) i). { intros i Hi. rewrite O3 by lia. rewrite Q2 by lia. apply D_ext. intros j Hj. apply Plo. auto. }
    assert (TH : forall i, (i < h)%nat -> nth (o + h + i) t3 0 = D h (high (2 * h) x) i). { intros i Hi. rewrite Q3 by lia. apply D_ext. intros j Hj. rewrite O2 by lia. apply Phi. auto. }
    split; [lia|]. split; [lia|]. split; [|split].
    + intros i Hi. destruct (Nat.Even_or_Odd i) as [[m ->]|[m ->]].
      * rewrite D_even. rewrite O6 by lia. destruct (Nat.eq_dec m (h - 1)) as [->|N].
        -- replace (vo + 2 * (h - 1))%nat with (vo + (2 * h - 2))%nat by lia. rewrite N5. apply TL. lia.
        -- rewrite O5 by lia. rewrite Me by lia. apply TL. lia.
      * rewrite D_odd. destruct (Nat.eq_dec m (h - 1)) as [->|N].
        -- replace (vo + (2 * (h - 1) + 1))%nat with (vo + (2 * h - 1))%nat by lia. rewrite N6. replace (S (h - 1)) with h by lia. rewrite D_top by lia. replace (o + (2 * h - 1))%nat with (o + h + (h - 1))%nat by lia. rewrite TH by lia. ring.
        -- rewrite O6, O5 by lia. rewrite Mo by lia. rewrite !TH by lia. reflexivity.
    + intros j Hj. rewrite O6, O5, O4 by lia. rewrite O3v by lia. apply O2v. lia.
    + intros j Hj. rewrite O3, O2 by lia. apply Po1. lia.
Qed.
(** Lengths 3 * 2^k: a constant input comes out with the wrong mean. *)
Lemma forward_three k : forall fuel v vo t o c, (k + 1 < fuel)%nat -> (vo + 3 * 2 ^ k <= length v)%nat -> (o + 3 * 2 ^ k <= length t)%nat ->
  (forall i, (i < 3 * 2 ^ k)%nat -> nth (vo + i) v 0 = c) ->
  exists v' t', forward_transform fuel v vo t o (3 * 2 ^ k) = Ok (v', t') /\ length v' = length v /\ length t' = length t /\ nth vo v' 0 = 2 ^ k * c /\
    (forall j, (j < vo)%nat \/ (vo + 3 * 2 ^ k <= j)%nat -> nth j v' 0 = nth j v 0) /\ (forall j, (j < o)%nat \/ (o + 3 * 2 ^ k <= j)%nat -> nth j t' 0 = nth j t 0).
Proof.
  induction k as [|k IH]; intros fuel v vo t o c Hf LV LT Hc.
  - change (2 ^ 0)%nat with 1%nat in *. change (3 * 1)%nat with 3%nat in *. destruct fuel as [|[|fuel]]; try lia. cbn [forward_transform Nat.eqb]. change (3 / 2)%nat with 1%nat.
    cbn [for_range bind]. unfold forward_split. change (3 / 2)%nat with 1%nat.
    rewrite (load_nth v (vo + 0) 0) by lia. cbn [bind]. rewrite (load_nth v (vo + (3 - 1 - 0)) 0) by lia. cbn [bind].
    destruct (store_nth t (o + 0) (nth (vo + 0) v 0 + nth (vo + (3 - 1 - 0)) v 0)) as [t1 [E1 [L1 [_ [N1 O1]]]]]; [lia|]. rewrite E1. cbn [bind].
    assert (NC : cos ((INR 0 + 1 / 2) * PI / INR 3) * 2 <> 0). { replace ((INR 0 + 1 / 2) * PI / INR 3) with (PI / 6) by (simpl; field). rewrite cos_PI6. pose proof (sqrt_lt_R0 3 ltac:(lra)). lra. }
    rewrite rdiv_ok by auto. cbn [bind]. match goal with |- context [store t1 ?i ?q] => destruct (store_nth t1 i q) as [t2 [E2 [L2 [_ [N2 O2]]]]]; [lia|] end. rewrite E2. cbn [bind Nat.eqb fst snd]. change (1 - 1)%nat with 0%nat. cbn [for_range bind].
    rewrite (load_nth t2 (o + 0) 0) by lia. cbn [bind]. match goal with |- context [store v ?i ?q] => destruct (store_nth v i q) as [v5 [E5 [L5 [_ [N5 O5]]]]]; [lia|] end. rewrite E5. cbn [bind].
    rewrite (load_nth t2 (o + (3 - 1)) 0) by lia. cbn [bind]. match goal with |- context [store v5 ?i ?q] => destruct (store_nth v5 i q) as [v6 [E6 [L6 [_ [N6 O6]]]]]; [lia|] end. rewrite E6. cbn [bind].
    exists v6, t2. split; [reflexivity|]. repeat split; [lia|lia| | |].
    + rewrite O6, O5 by lia. specialize (Hc 0%nat ltac:(lia)). rewrite Nat.add_0_r in Hc. rewrite Hc. ring.
    + intros j Hj. rewrite O6, O5 by lia. reflexivity.
    + intros j Hj. rewrite O2, O1 by lia. reflexivity.
  - destruct fuel as [|fuel]; [lia|]. pose proof (Nat.pow_nonzero 2 k ltac:(lia)) as NZ. set (h := (3 * 2 ^ k)%nat) in *. assert (EL : (3 * 2 ^ S k = 2 * h)%nat) by (unfold h; cbn [Nat.pow]; lia). rewrite EL in *.
    assert (Hh : (2 < h)%nat) by (unfold h; lia). assert (Dh : (2 * h / 2 = h)%nat) by (rewrite Nat.mul_comm; apply Nat.div_mul; lia). cbn [forward_transform]. destruct (Nat.eqb_spec (2 * h) 1); [lia|]. rewrite Dh.
    destruct (forward_split_loop v vo t o h) as [t1 [E1 [L1 [Plo [Phi Po1]]]]]; try lia. rewrite E1. cbn [bind].
    destruct (IH fuel t1 o v vo (2 * c)) as [t2 [v2 [E2 [L2 [L2v [Q2 [O2 O2v]]]]]]]; try lia. { intros i Hi. rewrite Plo by lia. unfold low. rewrite !Hc by lia. ring. } rewrite E2. cbn [bind fst snd].
    destruct (IH fuel t2 (o + h)%nat v2 vo 0) as [t3 [v3 [E3 [L3 [L3v [Q3 [O3 O3v]]]]]]]; try lia. { intros i Hi. rewrite O2 by lia. rewrite Phi by lia. unfold high. rewrite !Hc by lia. unfold Rdiv. ring. } rewrite E3. cbn [bind fst snd].
    destruct (forward_merge_loop t3 o v3 vo h) as [v4 [E4 [L4 [Me [Mo O4]]]]]; try lia. rewrite E4. cbn [bind].
    rewrite (load_nth t3 (o + (h - 1)) 0) by lia. cbn [bind]. match goal with |- context [store v4 ?i ?q] => destruct (store_nth v4 i q) as [v5 [E5 [L5 [_ [N5 O5]]]]]; [lia|] end. rewrite E5. cbn [bind].
    rewrite (load_nth t3 (o + (2 * h - 1)) 0) by lia. cbn [bind]. match goal with |- context [store v5 ?i ?q] => destruct (store_nth v5 i q) as [v6 [E6 [L6 [_ [N6 O6]]]]]; [lia|] end. rewrite E6. cbn [bind].
    exists v6, t3. split; [reflexivity|]. repeat split; [lia|lia| | |].
    + rewrite O6, O5 by lia. specialize (Me 0%nat ltac:(lia)). replace (vo + 2 * 0)%nat with vo in Me by lia. rewrite Me. rewrite O3 by lia. rewrite Nat.add_0_r, Q2. cbn [pow]. ring.
    + intros j Hj. rewrite O6, O5, O4 by lia. rewrite O3v by lia. apply O2v. lia.
    + intros j Hj. rewrite O3, O2 by lia. apply Po1. lia.
Qed.

(** * Inverse *)
Definition odds (x : nat -> R) (i : nat) : R := match i with O => x 1%nat | S _ => x (2 * i - 1)%nat + x (2 * i + 1)%nat end.
Lemma sumf_even_odd f h : sumf f (2 * h) = sumf (fun m => f (2 * m)%nat) h + sumf (fun m => f (2 * m + 1)%nat) h.
Proof. induction h as [|h IH]; [cbn; ring|]. replace (2 * S h)%nat with (S (S (2 * h))) by lia. cbn [sumf]. rewrite IH. replace (S (2 * h)) with (2 * h + 1)%nat by lia. ring. Qed.
Lemma I3_step h x k : (k < h)%nat -> let th := (INR k + 1 / 2) * PI / INR (2 * h) in
  sumf (fun m => x (2 * m + 1)%nat * cos (PI * INR (2 * m + 1) * (INR k + 1 / 2) / INR (2 * h))) h = I3 h (odds x) k / (cos th * 2).
Proof.
  intros K th. assert (NZ : INR h <> 0) by (apply INR_neq0; lia). pose proof (half_angle h k K) as P. fold th in P.
  assert (A : forall n, (n <= h)%nat -> cos th * 2 * sumf (fun m => x (2 * m + 1)%nat * cos (PI * INR (2 * m + 1) * (INR k + 1 / 2) / INR (2 * h))) n =
     match n with O => 0 | S n' => sumf (fun j => odds x j * cos (PI * INR j * (INR k + 1 / 2) / INR h)) n + x (2 * n' + 1)%nat * cos (PI * INR n * (INR k + 1 / 2) / INR h) end).
  { assert (Tri : forall m, cos th * 2 * cos (PI * INR (2 * m + 1) * (INR k + 1 / 2) / INR (2 * h)) = cos (PI * INR m * (INR k + 1 / 2) / INR h) + cos (PI * INR (S m) * (INR k + 1 / 2) / INR h)).
    { intros m. replace (PI * INR (2 * m + 1) * (INR k + 1 / 2) / INR (2 * h)) with (INR (2 * m + 1) * th) by (unfold th, Rdiv; ring).
      replace (PI * INR m * (INR k + 1 / 2) / INR h) with (INR (2 * m + 1) * th - th) by (unfold th; rewrite plus_INR, !mult_INR; simpl (INR 2); simpl (INR 1); field; auto).
      replace (PI * INR (S m) * (INR k + 1 / 2) / INR h) with (INR (2 * m + 1) * th + th) by (unfold th; rewrite S_INR, plus_INR, !mult_INR; simpl (INR 2); simpl (INR 1); field; auto). rewrite cos_plus, cos_minus. ring. }
    induction n as [|n IH]; intros Hn; [cbn; ring|]. cbn [sumf]. rewrite Rmult_plus_distr_l, IH by lia. replace (cos th * 2 * (x (2 * n + 1)%nat * cos (PI * INR (2 * n + 1) * (INR k + 1 / 2) / INR (2 * h)))) with (x (2 * n + 1)%nat * (cos th * 2 * cos (PI * INR (2 * n + 1) * (INR k + 1 / 2) / INR (2 * h)))) by ring. rewrite Tri. destruct n as [|n].
    - cbn [sumf odds]. simpl (INR 0). replace (PI * 0 * (INR k + 1 / 2) / INR h) with 0 by (unfold Rdiv; ring). rewrite cos_0. change (2 * 0 + 1)%nat with 1%nat. ring.
    - cbn [sumf odds]. replace (2 * S n - 1)%nat with (2 * n + 1)%nat by lia. ring. }
  specialize (A h (le_n h)). destruct h as [|h']; [lia|]. unfold I3. replace (cos (PI * INR (S h') * (INR k + 1 / 2) / INR (S h'))) with 0 in A.
  - rewrite Rmult_0_r, Rplus_0_r in A. rewrite <- A. field. lra.
  - replace (PI * INR (S h') * (INR k + 1 / 2) / INR (S h')) with ((INR k + 1 / 2) * PI) by (field; auto). symmetry. apply cos_half_odd.
Qed.
Lemma I3_front h x k : (k < h)%nat -> I3 (2 * h) x k = I3 h (fun m => x (2 * m)%nat) k + I3 h (odds x) k / (cos ((INR k + 1 / 2) * PI / INR (2 * h)) * 2).
Proof.
  intros K. unfold I3 at 1. rewrite sumf_even_odd. f_equal; [|apply I3_step; auto]. apply sumf_ext. intros m M. f_equal. f_equal. assert (NZ : INR h <> 0) by (apply INR_neq0; lia). rewrite !mult_INR. simpl (INR 2). field. auto.
Qed.
Lemma cos_mirror3 h k j : (k < h)%nat -> cos (PI * INR j * (INR (2 * h - 1 - k) + 1 / 2) / INR (2 * h)) = (if Nat.even j then 1 else -1) * cos (PI * INR j * (INR k + 1 / 2) / INR (2 * h)).
Proof.
  intros K. replace (PI * INR j * (INR (2 * h - 1 - k) + 1 / 2) / INR (2 * h)) with ((INR (2 * h - 1 - k) + 1 / 2) * PI * INR j / INR (2 * h)) by (unfold Rdiv; ring). rewrite cos_mirror by auto. do 2 f_equal. unfold Rdiv; ring.
Qed.
Lemma I3_back h x k : (k < h)%nat -> I3 (2 * h) x (2 * h - 1 - k) = I3 h (fun m => x (2 * m)%nat) k - I3 h (odds x) k / (cos ((INR k + 1 / 2) * PI / INR (2 * h)) * 2).
Proof.
  intros K. unfold I3 at 1. rewrite sumf_even_odd. unfold Rminus. f_equal.
  - apply sumf_ext. intros m M. f_equal. rewrite cos_mirror3 by auto. replace (Nat.even (2 * m)) with true by (symmetry; apply Nat.even_spec; exists m; auto). rewrite Rmult_1_l. f_equal. assert (NZ : INR h <> 0) by (apply INR_neq0; lia). rewrite !mult_INR. simpl (INR 2). field. auto.
  - rewrite <- I3_step by auto. match goal with |- _ = - ?A => replace (- A) with ((-1) * A) by ring end. rewrite <- sumf_scal. apply sumf_ext. intros m M. rewrite cos_mirror3 by auto. replace (Nat.even (2 * m + 1)) with false by (symmetry; rewrite Nat.add_comm, Nat.even_add_mul_2; reflexivity). ring.
Qed.
Lemma inverse_split_loop v vo t o h : (0 < h)%nat -> (vo + 2 * h <= length v)%nat -> (o + 2 * h <= length t)%nat ->
  exists t', for_range (h - 1) (inverse_split v vo o (2 * h)) t = Ok t' /\ length t' = length t /\
    (forall i, (0 < i < h)%nat -> nth (o + i) t' 0 = nth (vo + 2 * i) v 0) /\
    (forall i, (0 < i < h)%nat -> nth (o + h + i) t' 0 = odds (fun j => nth (vo + j) v 0) i) /\
    nth (o + 0) t' 0 = nth (o + 0) t 0 /\ nth (o + h) t' 0 = nth (o + h) t 0 /\
    (forall j, (j < o)%nat \/ (o + 2 * h <= j)%nat -> nth j t' 0 = nth j t 0).
Proof.
  intros H LV LT. assert (Dh : (2 * h / 2 = h)%nat) by (rewrite Nat.mul_comm; apply Nat.div_mul; lia).
  destruct (for_range_inv (fun n t' => length t' = length t /\ (forall i, (0 < i <= n)%nat -> nth (o + i) t' 0 = nth (vo + 2 * i) v 0) /\
     (forall i, (0 < i <= n)%nat -> nth (o + h + i) t' 0 = odds (fun j => nth (vo + j) v 0) i) /\ nth (o + 0) t' 0 = nth (o + 0) t 0 /\ nth (o + h) t' 0 = nth (o + h) t 0 /\ (forall j, (j < o)%nat \/ (o + 2 * h <= j)%nat -> nth j t' 0 = nth j t 0)) (h - 1) (inverse_split v vo o (2 * h)) t) as [t' [E P]].
  - repeat split; auto; intros i Hi; lia.
  - intros i s Hi [L [Pe [Po [Z0 [Zh Pout]]]]]. unfold inverse_split. rewrite Dh.
    rewrite (load_nth v (vo + S i * 2) 0) by lia. cbn [bind]. match goal with |- context [store s ?k ?q] => destruct (store_nth s k q) as [s1 [E1 [L1 [_ [N1 O1]]]]]; [lia|] end. rewrite E1. cbn [bind].
    rewrite (load_nth v (vo + (S i * 2 - 1)) 0) by lia. cbn [bind]. rewrite (load_nth v (vo + (S i * 2 + 1)) 0) by lia. cbn [bind].
    match goal with |- context [store s1 ?k ?q] => destruct (store_nth s1 k q) as [s2 [E2 [L2 [_ [N2 O2]]]]]; [lia|] end. rewrite E2. exists s2. split; auto. repeat split; [lia| | | | |].
    + intros k Hk. rewrite O2 by lia. destruct (Nat.eq_dec k (S i)) as [->|N]; [rewrite N1; f_equal; lia|]. rewrite O1 by lia. apply Pe. lia.
    + intros k Hk. destruct (Nat.eq_dec k (S i)) as [->|N]; [replace (o + h + S i)%nat with (o + (S i + h))%nat by lia; rewrite N2; unfold odds; f_equal; f_equal; lia|]. rewrite O2, O1 by lia. apply Po. lia.
    + rewrite O2, O1 by lia. auto.
    + rewrite O2, O1 by lia. auto.
    + intros j Hj. rewrite O2, O1 by lia. apply Pout. auto.
  - exists t'. destruct P as [L [Pe [Po [Z0 [Zh Pout]]]]]. repeat split; auto; intros i Hi; [apply Pe|apply Po]; lia.
Qed.
Lemma inverse_merge_loop t o v vo h : (0 < h)%nat -> (vo + 2 * h <= length v)%nat -> (o + 2 * h <= length t)%nat ->
  exists v', for_range h (inverse_merge t o vo (2 * h)) v = Ok v' /\ length v' = length v /\
    (forall i, (i < h)%nat -> nth (vo + i) v' 0 = nth (o + i) t 0 + nth (o + h + i) t 0 / (cos ((INR i + 1 / 2) * PI / INR (2 * h)) * 2)) /\
    (forall i, (i < h)%nat -> nth (vo + (2 * h - 1 - i)) v' 0 = nth (o + i) t 0 - nth (o + h + i) t 0 / (cos ((INR i + 1 / 2) * PI / INR (2 * h)) * 2)) /\
    (forall j, (j < vo)%nat \/ (vo + 2 * h <= j)%nat -> nth j v' 0 = nth j v 0).
Proof.
  intros H LV LT. assert (Dh : (2 * h / 2 = h)%nat) by (rewrite Nat.mul_comm; apply Nat.div_mul; lia).
  destruct (for_range_inv (fun n v' => length v' = length v /\ (forall i, (i < n)%nat -> nth (vo + i) v' 0 = nth (o + i) t 0 + nth (o + h + i) t 0 / (cos ((INR i + 1 / 2) * PI / INR (2 * h)) * 2)) /\
    (forall i, (i < n)%nat -> nth (vo + (2 * h - 1 - i)) v' 0 = nth (o + i) t 0 - nth (o + h + i) t 0 / (cos ((INR i + 1 / 2) * PI / INR (2 * h)) * 2)) /\ (forall j, (j < vo)%nat \/ (vo + 2 * h <= j)%nat -> nth j v' 0 = nth j v 0)) h (inverse_merge t o vo (2 * h)) v) as [v' [E P]].
  - repeat split; auto; intros i Hi; lia.
  - intros i s Hi [L [Pe [Po Pout]]]. unfold inverse_merge. rewrite Dh.
    rewrite (load_nth t (o + i) 0) by lia. cbn [bind]. replace (o + (i + h))%nat with (o + h + i)%nat by lia. rewrite (load_nth t (o + h + i) 0) by lia. cbn [bind]. rewrite rdiv_ok by (pose proof (half_angle h i Hi); lra). cbn [bind].
    match goal with |- context [store s ?k ?q] => destruct (store_nth s k q) as [s1 [E1 [L1 [_ [N1 O1]]]]]; [lia|] end. rewrite E1. cbn [bind].
    match goal with |- context [store s1 ?k ?q] => destruct (store_nth s1 k q) as [s2 [E2 [L2 [_ [N2 O2]]]]]; [lia|] end. rewrite E2. exists s2. split; auto. repeat split; [lia| | |].
    + intros k Hk. rewrite O2 by lia. destruct (Nat.eq_dec k i) as [->|N]; [apply N1|]. rewrite O1 by lia. apply Pe. lia.
    + intros k Hk. destruct (Nat.eq_dec k i) as [->|N]; [apply N2|]. rewrite O2, O1 by lia. apply Po. lia.
    + intros j Hj. rewrite O2, O1 by lia. apply Pout. auto.
  - exists v'. tauto.
Qed.
Lemma inverse_pow2 k : forall fuel v vo t o, (k < fuel)%nat -> (vo + 2 ^ k <= length v)%nat -> (o + 2 ^ k <= length t)%nat ->
  fwd_spec (2 ^ k) (I3 (2 ^ k)) v vo t o (inverse_transform fuel v vo t o (2 ^ k)).
Proof.
  induction k as [|k IH]; intros fuel v vo t o Hf LV LT.
  - destruct fuel; [lia|]. cbn. exists v, t. repeat split; auto. intros i Hi. assert (i = 0)%nat by lia. subst i. unfold I3. cbn. replace (PI * 0 * (0 + 1 / 2) / 1) with 0 by field. rewrite cos_0. ring.
  - destruct fuel as [|fuel]; [lia|]. pose proof (Nat.pow_nonzero 2 k ltac:(lia)) as NZ. set (h := (2 ^ k)%nat) in *. assert (EL : (2 ^ S k = 2 * h)%nat) by reflexivity. rewrite EL in *.
    assert (Dh : (2 * h / 2 = h)%nat) by (rewrite Nat.mul_comm; apply Nat.div_mul; lia). cbn [inverse_transform]. destruct (Nat.eqb_spec (2 * h) 1); [lia|]. rewrite Dh.
    rewrite (load_nth v (vo + 0) 0) by lia. cbn [bind]. match goal with |- context [store t ?k ?q] => destruct (store_nth t k q) as [ta [Ea [La [_ [Na Oa]]]]]; [lia|] end. rewrite Ea. cbn [bind].
    rewrite (load_nth v (vo + 1) 0) by lia. cbn [bind]. match goal with |- context [store ta ?k ?q] => destruct (store_nth ta k q) as [tb [Eb [Lb [_ [Nb Ob]]]]]; [lia|] end. rewrite Eb. cbn [bind].
    destruct (inverse_split_loop v vo tb o h) as [t1 [E1 [L1 [Plo [Phi [Z0 [Zh Po1]]]]]]]; try lia. rewrite E1. cbn [bind].
    destruct (IH fuel t1 o v vo) as [t2 [v2 [E2 [L2 [L2v [Q2 [O2 O2v]]]]]]]; try lia. rewrite E2. cbn [bind fst snd].
    destruct (IH fuel t2 (o + h)%nat v2 vo) as [t3 [v3 [E3 [L3 [L3v [Q3 [O3 O3v]]]]]]]; try lia. rewrite E3. cbn [bind fst snd].
    destruct (inverse_merge_loop t3 o v3 vo h) as [v4 [E4 [L4 [Mf [Mb O4]]]]]; try lia. rewrite E4. cbn [bind].
    exists v4, t3. split; [reflexivity|]. set (x := fun j => nth (vo + j) v 0) in *.
    assert (TL : forall i, (i < h)%nat -> nth (o + i) t3 0 = I3 h (fun m => x (2 * m)%nat) i).
    { intros i Hi. rewrite O3 by lia. rewrite Q2 by lia. apply I3_ext. intros j Hj. destruct j as [|j]; [rewrite Z0, Ob by lia; rewrite Na; reflexivity|]. apply Plo. lia. }
    assert (TH : forall i, (i < h)%nat -> nth (o + h + i) t3 0 = I3 h (odds x) i).
    { intros i Hi. rewrite Q3 by lia. apply I3_ext. intros j Hj. rewrite O2 by lia. destruct j as [|j]; [rewrite Nat.add_0_r, Zh, Nb; reflexivity|]. apply Phi. lia. }
    split; [lia|]. split; [lia|]. split; [|split].
    + intros i Hi. destruct (Nat.lt_ge_cases i h) as [B|B].
      * rewrite Mf, TL, TH by auto. symmetry. apply I3_front. auto.
      * replace i with (2 * h - 1 - (2 * h - 1 - i))%nat by lia. rewrite Mb, TL, TH by lia. symmetry. apply I3_back. lia.
    + intros j Hj. rewrite O4 by lia. rewrite O3v by lia. apply O2v. lia.
    + intros j Hj. rewrite O3, O2 by lia. rewrite Po1 by lia. rewrite Ob, Oa by lia. reflexivity.
Qed.
