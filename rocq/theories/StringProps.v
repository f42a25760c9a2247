(** Theorems C42, C43, C72: strings. *)
From Verif Require Import Base BaseProofs StringModel StringSpec.
Local Open Scope res_scope.
Local Open Scope Z_scope.

(** *** split *)
Lemma take_segment_no d x s : ~ In d x -> take_segment d (x ++ [d] ++ s) = (x, s).
Proof.
  induction x as [|c x IH]; intros H; cbn [app take_segment].
  - rewrite Z.eqb_refl. reflexivity.
  - destruct (Z.eqb_spec c d); [exfalso; apply H; left; auto|]. cbn [app] in IH. rewrite IH by (intros Q; apply H; right; auto). reflexivity.
Qed.
Lemma take_segment_end d x : ~ In d x -> take_segment d x = (x, []).
Proof.
  induction x as [|c x IH]; intros H; cbn [take_segment]; auto. destruct (Z.eqb_spec c d); [exfalso; apply H; left; auto|].
  rewrite IH by (intros Q; apply H; right; auto). reflexivity.
Qed.
Lemma split_loop_ds d ds : Forall (eq d) ds -> forall fuel s, (length ds + length s <= fuel)%nat -> split_loop fuel d (ds ++ s) = split_loop (fuel - length ds) d s.
Proof.
  induction 1 as [|c ds E F IH]; intros fuel s L; cbn [app length]; [rewrite Nat.sub_0_r; auto|]. subst c. cbn [length] in L.
  destruct fuel as [|f]; [lia|]. cbn [split_loop getline take_segment]. rewrite Z.eqb_refl. rewrite IH by lia. reflexivity.
Qed.
Lemma split_loop_nil d fuel : split_loop fuel d [] = []. Proof. destruct fuel; reflexivity. Qed.
Lemma split_runs_loop d s l : runs d s l -> forall fuel, (length s <= fuel)%nat -> split_loop fuel d s = l.
Proof.
  induction 1 as [ds F|ds x F N I|ds x s l F N I R IH]; intros fuel L.
  - rewrite <- (app_nil_r ds). rewrite split_loop_ds by (auto; simpl; lia). apply split_loop_nil.
  - rewrite app_length in L. rewrite split_loop_ds by (auto; lia). destruct (fuel - length ds)%nat as [|f] eqn:E; [destruct x; [congruence|cbn [length] in L; lia]|].
    cbn [split_loop]. unfold getline. destruct x as [|c x]; [congruence|]. rewrite take_segment_end by auto. cbn iota. rewrite split_loop_nil. reflexivity.
  - rewrite !app_length in L. cbn [length] in L. rewrite split_loop_ds by (rewrite ?app_length; auto; cbn [length]; lia). destruct (fuel - length ds)%nat as [|f] eqn:E; [lia|].
    cbn [split_loop]. unfold getline. destruct x as [|c x]; [congruence|]. cbn [app]. change (c :: x ++ d :: s) with ((c :: x) ++ [d] ++ s). rewrite take_segment_no by auto. cbn iota. f_equal. apply IH. cbn [length] in L. lia.
Qed.
Lemma runs_total d : forall n s, (length s <= n)%nat -> exists l, runs d s l.
Proof.
  induction n as [|n IH]; intros s L.
  - destruct s; [|cbn [length] in L; lia]. exists []. apply runs_end. constructor.
  - assert (D : exists ds t, s = ds ++ t /\ Forall (eq d) ds /\ (t = [] \/ exists c u, t = c :: u /\ c <> d)).
    { clear. induction s as [|c s [ds [t [E [F T]]]]]; [exists [], []; auto|]. destruct (Z.eq_dec c d) as [->|N].
      - exists (d :: ds), t. subst s. split; auto.
      - exists [], (c :: s). split; auto. split; auto. right. eauto. }
    destruct D as [ds [t [E [F T]]]]. destruct T as [->|[c [u [-> Nc]]]].
    + exists []. subst s. rewrite app_nil_r. apply runs_end; auto.
    + assert (X : exists x r, c :: u = x ++ r /\ x <> [] /\ ~ In d x /\ (r = [] \/ exists r', r = d :: r')).
      { clear -Nc. revert c Nc. induction u as [|e u IH]; intros c Nc; [exists [c], []; repeat split; auto; [discriminate|intros [Q|[]]; auto]|].
        destruct (Z.eq_dec e d) as [->|Ne].
        - exists [c], (d :: u). repeat split; auto; [discriminate|intros [Q|[]]; auto|]. right. eauto.
        - destruct (IH e Ne) as [x [r [E [N [I R]]]]]. exists (c :: x), r. split; [cbn [app]; rewrite E; auto|]. split; [discriminate|]. split; auto. intros [Q|Q]; auto. }
      destruct X as [x [r [E2 [N [I R]]]]]. destruct R as [->|[r' ->]].
      * exists [x]. subst s. rewrite E2, app_nil_r. apply runs_last; auto.
      * destruct (IH r') as [l Rl]; [subst s; rewrite E2, !app_length in L; cbn [length] in L; lia|]. exists (x :: l). subst s. rewrite E2. apply (runs_item d ds x r' l); auto.
Qed.
(** split returns the maximal delimiter-free runs of the string, in order. *)
Theorem C42_split d s l : str_split d s = l <-> runs d s l.
Proof.
  split; [|intros R; apply split_runs_loop; auto]. intros <-. destruct (runs_total d (length s) s (le_n _)) as [l R]. unfold str_split. rewrite (split_runs_loop d s l R) by auto. exact R.
Qed.
Lemma runs_items d s l : runs d s l -> Forall (fun x => x <> [] /\ ~ In d x) l.
Proof. induction 1; constructor; auto. Qed.
Lemma filter_all_eq d ds : Forall (eq d) ds -> List.filter (fun c => negb (c =? d)) ds = [].
Proof. induction 1 as [|c ds E F IH]; cbn [List.filter]; auto. subst c. rewrite Z.eqb_refl. auto. Qed.
Lemma filter_none_eq d x : ~ In d x -> List.filter (fun c => negb (c =? d)) x = x.
Proof.
  induction x as [|c x IH]; intros H; cbn [List.filter]; auto. destruct (Z.eqb_spec c d); [exfalso; apply H; left; auto|]. cbn [negb]. rewrite IH by (intros Q; apply H; right; auto). auto.
Qed.
(** No item is empty or contains the delimiter, and the items are the string without its delimiters. *)
Theorem C42_split_items d s : Forall (fun x => x <> [] /\ ~ In d x) (str_split d s) /\ concat (str_split d s) = List.filter (fun c => negb (c =? d)) s.
Proof.
  assert (R : runs d s (str_split d s)) by (apply C42_split; auto). split; [apply (runs_items d s); auto|]. revert R. generalize (str_split d s). intros l R.
  induction R as [ds F|ds x F N I|ds x s l F N I R IH]; cbn [concat]; rewrite ?filter_app, ?filter_all_eq by auto; auto.
  - rewrite filter_none_eq by auto. cbn [app]. rewrite app_nil_r. reflexivity.
  - cbn [app List.filter]. rewrite Z.eqb_refl. cbn [negb]. rewrite filter_none_eq by auto. rewrite IH. reflexivity.
Qed.
(** *** join *)
Lemma c_str_id s : ~ In 0 s -> c_str s = s.
Proof. induction s as [|c s IH]; intros H; cbn [c_str]; auto. destruct (Z.eqb_spec c 0); [exfalso; apply H; left; auto|]. rewrite IH by (intros Q; apply H; right; auto). auto. Qed.
Lemma c_str_app s t : ~ In 0 s -> c_str (s ++ t) = s ++ c_str t.
Proof. induction s as [|c s IH]; intros H; cbn [app c_str]; auto. destruct (Z.eqb_spec c 0); [exfalso; apply H; left; auto|]. rewrite IH by (intros Q; apply H; right; auto). auto. Qed.
Lemma join_stream_nul d l : d <> 0 -> Forall (fun x => ~ In 0 x) l -> ~ In 0 (join_stream d l).
Proof.
  intros Hd. induction 1 as [|x l Hx F IH]; [intros []|]. destruct l as [|y l]; [exact Hx|]. cbn [join_stream] in *. intros Q. apply in_app_or in Q as [Q|Q]; auto. destruct Q as [Q|Q]; auto.
Qed.
Lemma runs_join d l : Forall (fun x => x <> [] /\ ~ In d x) l -> runs d (join_stream d l) l.
Proof.
  induction 1 as [|x l [N I] F IH]; [apply runs_end; constructor|]. destruct l as [|y l].
  - apply (runs_last d [] x); auto.
  - change (join_stream d (x :: y :: l)) with ([] ++ x ++ [d] ++ join_stream d (y :: l)). apply runs_item; auto.
Qed.
(** Splitting a joined list gives the list back. *)
Theorem C42_round_trip d l : d <> 0 -> Forall (fun x => x <> [] /\ ~ In d x /\ ~ In 0 x) l -> str_split d (join d l) = l.
Proof.
  intros Hd H. unfold join. rewrite c_str_id; [apply C42_split, runs_join|apply join_stream_nul; auto]; eapply Forall_impl; try exact H; cbn beta; intros a [? [? ?]]; auto.
Qed.
(** Joining a split string collapses the runs of delimiters: splitting again changes nothing. *)
Theorem C42_join_split d s : d <> 0 -> ~ In 0 s -> str_split d (join d (str_split d s)) = str_split d s.
Proof.
  intros Hd H. apply C42_round_trip; auto. destruct (C42_split_items d s) as [A B]. apply Forall_forall. intros x HX. rewrite Forall_forall in A. destruct (A x HX). split; auto. split; auto.
  intros Q. apply H. assert (I : In 0 (concat (str_split d s))) by (apply in_concat; eauto). rewrite B in I. apply filter_In in I. tauto.
Qed.
(** A NUL anywhere cuts the result: everything from the first NUL on is lost. *)
Theorem C42_join_nul_refuted d l s t : join_stream d l = s ++ 0 :: t -> ~ In 0 s -> join d l = s.
Proof. intros E H. unfold join. rewrite E, c_str_app by auto. cbn [c_str]. rewrite Z.eqb_refl, app_nil_r. reflexivity. Qed.
Example C42_ex : str_split 44 [44; 97; 98; 44; 44; 99] = [[97; 98]; [99]] /\ join 44 [[97; 98]; [99]] = [97; 98; 44; 99].
Proof. split; reflexivity. Qed.
Example C42_nul_ex : join 44 [[97]; [98; 0; 99]; [100]] = [97; 44; 98]. Proof. reflexivity. Qed.

(** *** trim *)
Lemma isspace_ok c : char_ok c -> exists b, isspace c = Ok b /\ (b = true <-> space c).
Proof.
  intros [H1 H2]. unfold isspace, ctype. destruct (Z.leb_spec (-1) c); [|lia]. destruct (Z.leb_spec c 255); [|lia]. cbn [andb]. eexists. split; [reflexivity|].
  unfold space. rewrite Bool.orb_true_iff, Bool.andb_true_iff, Z.eqb_eq, !Z.leb_le. tauto.
Qed.
Lemma isspace_ub c : -128 <= c <= 127 -> (isspace c = UB <-> c < -1).
Proof. intros H. unfold isspace, ctype. destruct (Z.leb_spec (-1) c), (Z.leb_spec c 255); cbn [andb]; split; try lia; try discriminate; auto. Qed.
Lemma ltrim_ok s : Forall char_ok s -> exists a r, s = a ++ r /\ ltrim s = Ok r /\ Forall space a /\ (forall c t, r = c :: t -> ~ space c).
Proof.
  induction 1 as [|c s Hc F [a [r [E [L [A B]]]]]]; [exists [], []; repeat split; auto; discriminate|]. cbn [ltrim]. destruct (isspace_ok c Hc) as [b [Eb Hb]]. rewrite Eb. cbn [bind]. destruct b.
  - exists (c :: a), r. subst s. split; auto. split; auto. split; auto. constructor; auto. apply Hb; auto.
  - exists [], (c :: s). repeat split; auto. intros c' t Q. injection Q as <- <-. intros S. apply Hb in S. discriminate.
Qed.
Theorem C43_trim s : Forall char_ok s -> exists r, trim s = Ok r /\ trimmed s r /\ trim r = Ok r.
Proof.
  intros F. assert (G : forall s, Forall char_ok s -> exists r, trim s = Ok r /\ trimmed s r).
  { clear. intros s F. unfold trim. destruct (ltrim_ok s F) as [a [r [E [L [A B]]]]]. rewrite L. cbn [bind]. unfold rtrim.
    assert (Fr : Forall char_ok r) by (subst s; apply Forall_app in F; tauto). assert (Frr : Forall char_ok (rev r)) by (apply Forall_rev; auto).
    destruct (ltrim_ok (rev r) Frr) as [b [q [E2 [L2 [A2 B2]]]]]. rewrite L2. cbn [bind]. exists (rev q). split; auto. assert (E3 : r = rev q ++ rev b) by (rewrite <- rev_app_distr, <- E2, rev_involutive; auto).
    exists a, (rev b). split; [subst s; rewrite E3; auto|]. split; auto. split; [apply Forall_rev; auto|]. split.
    - intros c t Q. destruct r as [|c' r']; [destruct (rev q); discriminate|]. rewrite Q in E3. cbn [app] in E3. injection E3 as -> _. apply (B c r'); auto.
    - intros c t Q. apply (B2 c (rev t)). rewrite <- (rev_involutive q), Q, rev_app_distr. reflexivity. }
  destruct (G s F) as [r [E T]]. exists r. split; auto. split; auto.
  assert (Fr : Forall char_ok r) by (destruct T as [a [b [-> _]]]; apply Forall_app in F as [_ F]; apply Forall_app in F; tauto).
  destruct (G r Fr) as [r' [E' T']]. rewrite E'. f_equal. destruct T as [a [b [_ [_ [_ [T1 T2]]]]]]. destruct T' as [a' [b' [Q [A [B _]]]]].
  destruct a' as [|x a']; [|exfalso; apply (T1 x (a' ++ r' ++ b')); [auto|inversion A; auto]].
  destruct b' as [|y b']; [cbn [app] in Q; rewrite app_nil_r in Q; auto|]. exfalso. destruct (@exists_last _ (y :: b')) as [u [z Z]]; [discriminate|]. rewrite Z in Q, B. apply (T2 z (r' ++ u)).
  - rewrite Q. cbn [app]. rewrite app_assoc. reflexivity.
  - apply Forall_app in B as [_ B]. inversion B; auto.
Qed.
(** The trimmed string is unique, so trim is determined by its specification. *)
Lemma trimmed_unique s r r' : trimmed s r -> trimmed s r' -> r = r'.
Proof.
  assert (P : forall a a' u u', a ++ u = a' ++ u' -> Forall space a -> Forall space a' -> (u <> [] -> forall c t, u = c :: t -> ~ space c) -> (u' <> [] -> forall c t, u' = c :: t -> ~ space c) -> (u = [] -> u' = []) -> (u' = [] -> u = []) -> u = u').
  { induction a as [|x a IH]; intros a' u u' E A A' U U' N N'; destruct a' as [|x' a']; cbn [app] in E; auto.
    - destruct u as [|c u]; [discriminate|]. injection E as Ec E. exfalso. apply (U ltac:(discriminate) c u eq_refl). rewrite Ec. inversion A'; auto.
    - destruct u' as [|c u']; [discriminate|]. injection E as Ec E. exfalso. apply (U' ltac:(discriminate) c u' eq_refl). rewrite <- Ec. inversion A; auto.
    - injection E as <- E. inversion A; inversion A'; subst. apply (IH a'); auto. }
  assert (NS : forall r b, Forall space b -> (forall c t, r = c :: t -> ~ space c) -> r ++ b <> [] -> r <> [] -> forall c t, r ++ b = c :: t -> ~ space c).
  { intros q b _ H _ Hq c t E. destruct q as [|c' q]; [congruence|]. cbn [app] in E. injection E as -> _. apply (H c q); auto. }
  intros [a [b [E [A [B [L R]]]]]] [a' [b' [E' [A' [B' [L' R']]]]]]. 
  assert (AllS : forall r, (forall c t, r = c :: t -> ~ space c) -> Forall space r -> r = []).
  { intros q H F. destruct q as [|c q]; auto. exfalso. apply (H c q eq_refl). inversion F; auto. }
  destruct r as [|c r].
  - symmetry. apply AllS; auto. cbn [app] in E. assert (Forall space s) by (rewrite E; apply Forall_app; auto). rewrite E' in H. apply Forall_app in H as [_ H]. apply Forall_app in H. tauto.
  - destruct r' as [|c' r'].
    + apply AllS; auto. cbn [app] in E'. assert (Forall space s) by (rewrite E'; apply Forall_app; auto). rewrite E in H. apply Forall_app in H as [_ H]. apply Forall_app in H. tauto.
    + assert (Q : (c :: r) ++ b = (c' :: r') ++ b').
      { apply (P a a'); auto; try discriminate; [rewrite <- E; auto| |].
        - intros _ x t X. cbn [app] in X. injection X as <- _. apply (L c r); auto.
        - intros _ x t X. cbn [app] in X. injection X as <- _. apply (L' c' r'); auto. }
      assert (Q2 : rev b ++ rev (c :: r) = rev b' ++ rev (c' :: r')) by (rewrite <- !rev_app_distr, Q; auto).
      assert (Z : rev (c :: r) = rev (c' :: r')).
      { apply (P (rev b) (rev b')); auto; try (apply Forall_rev; auto).
        - intros _ x t X. apply (R x (rev t)). rewrite <- (rev_involutive (c :: r)), X. reflexivity.
        - intros _ x t X. apply (R' x (rev t)). rewrite <- (rev_involutive (c' :: r')), X. reflexivity.
        - intros X. apply (f_equal (@length _)) in X. rewrite rev_length in X. discriminate.
        - intros X. apply (f_equal (@length _)) in X. rewrite rev_length in X. discriminate. }
      rewrite <- (rev_involutive (c :: r)), Z, rev_involutive. reflexivity.
Qed.
Theorem C43_trim_exact s r : Forall char_ok s -> (trim s = Ok r <-> trimmed s r).
Proof.
  intros F. destruct (C43_trim s F) as [r0 [E [T _]]]. split.
  - intros Q. rewrite E in Q. injection Q as <-. auto.
  - intros Q. rewrite E. f_equal. apply (trimmed_unique s); auto.
Qed.
(** ltrim and rtrim commute. *)
Theorem C43_commute s : Forall char_ok s -> (t <- rtrim s ;; ltrim t) = trim s.
Proof.
  intros F. destruct (C43_trim s F) as [r [E _]]. 
  assert (T : exists q, (t <- rtrim s ;; ltrim t) = Ok q /\ trimmed s q).
  { unfold rtrim. destruct (ltrim_ok (rev s) (Forall_rev F)) as [b [q [E2 [L2 [A2 B2]]]]]. rewrite L2. cbn [bind]. assert (E3 : s = rev q ++ rev b) by (rewrite <- rev_app_distr, <- E2, rev_involutive; auto).
    assert (Fq : Forall char_ok (rev q)) by (rewrite E3 in F; apply Forall_app in F; tauto). destruct (ltrim_ok (rev q) Fq) as [a [p [E4 [L4 [A4 B4]]]]]. rewrite L4. exists p. split; auto.
    exists a, (rev b). split; [rewrite E3, E4, app_assoc; auto|]. split; auto. split; [apply Forall_rev; auto|]. split; auto.
    intros c t Q. apply (B2 c (rev t ++ rev a)). rewrite <- (rev_involutive q), E4, Q, !rev_app_distr. reflexivity. }
  destruct T as [q [Eq Tq]]. rewrite Eq. symmetry. apply C43_trim_exact; auto.
Qed.
(** A character outside the 7-bit range reached by the scan is passed to isspace as a negative
    integer: undefined.  (-1 equals EOF and is accepted.) *)
Theorem C43_trim_high_refuted a c s : Forall space a -> -128 <= c < -1 -> trim (a ++ c :: s) = UB.
Proof.
  intros A Hc. unfold trim. assert (L : ltrim (a ++ c :: s) = UB); [|rewrite L; reflexivity]. induction A as [|x a Hx A IH]; cbn [app ltrim].
  - assert (U : isspace c = UB) by (apply isspace_ub; lia). rewrite U. reflexivity.
  - destruct (isspace_ok x) as [b [Eb Hb]]; [unfold char_ok; destruct Hx; lia|]. rewrite Eb. cbn [bind]. destruct b; auto. exfalso. assert (false = true) by (apply Hb; auto). discriminate.
Qed.
Example C43_ex : trim [32; 9; 97; 32; 98; 10] = Ok [97; 32; 98] /\ Forall char_ok [32; 9; 97; 32; 98; 10] /\ trim [32; -61; -87] = UB.
Proof. repeat split; auto; repeat constructor; unfold char_ok; lia. Qed.

(** *** case conversion *)
Theorem C72_case_ascii s : Forall char_ok s -> exists lo up, tolower s = Ok lo /\ toupper s = Ok up /\
  length lo = length s /\ length up = length s /\
  (forall i c, nth_error s i = Some c ->
     nth_error lo i = Some (if (65 <=? c) && (c <=? 90) then c + 32 else c) /\ nth_error up i = Some (if (97 <=? c) && (c <=? 122) then c - 32 else c)) /\
  tolower lo = Ok lo /\ toupper up = Ok up /\ toupper lo = Ok up /\ tolower up = Ok lo.
Proof.
  induction 1 as [|c s Hc F [lo [up [E1 [E2 [L1 [L2 [V [I1 [I2 [I3 I4]]]]]]]]]]].
  - exists [], []. repeat split; auto; destruct i; discriminate.
  - assert (K : forall A (f : Z -> A) x, char_ok x -> ctype f x = Ok (f x)).
    { intros A f x [H1 H2]. unfold ctype. destruct (Z.leb_spec (-1) x); [|lia]. destruct (Z.leb_spec x 255); [|lia]. reflexivity. }
    set (l := if (65 <=? c) && (c <=? 90) then c + 32 else c). set (u := if (97 <=? c) && (c <=? 122) then c - 32 else c).
    assert (B : char_ok l /\ char_ok u /\ (if (65 <=? l) && (l <=? 90) then l + 32 else l) = l /\ (if (97 <=? u) && (u <=? 122) then u - 32 else u) = u /\
                (if (97 <=? l) && (l <=? 122) then l - 32 else l) = u /\ (if (65 <=? u) && (u <=? 90) then u + 32 else u) = l).
    { unfold char_ok in *. unfold l, u. destruct (Z.leb_spec 65 c), (Z.leb_spec c 90), (Z.leb_spec 97 c), (Z.leb_spec c 122); cbn [andb]; try lia;
      repeat match goal with |- context [(?a <=? ?b)] => destruct (Z.leb_spec a b); cbn [andb] end; lia. }
    destruct B as [Bl [Bu [B1 [B2 [B3 B4]]]]].
    exists (l :: lo), (u :: up). unfold tolower, toupper in *. cbn [mapM]. unfold tolower_c, toupper_c in *. rewrite !K by auto. cbn [bind]. rewrite E1, E2, I1, I2, I3, I4. cbn [bind]. fold l u. rewrite B1, B2, B3, B4.
    repeat split; auto; cbn [length]; auto; destruct i as [|i]; cbn [nth_error] in *; try (injection H as <-; reflexivity); apply V; auto.
Qed.
Theorem C72_case_high_refuted s c : In c s -> -128 <= c < -1 -> tolower s = UB /\ toupper s = UB.
Proof.
  intros I H. assert (K : forall A (f : Z -> A), ctype f c = UB) by (intros; unfold ctype; destruct (Z.leb_spec (-1) c); [lia|reflexivity]).
  assert (G : forall f : Z -> Z, mapM (ctype f) s = UB); [|split; apply G].
  intros f. induction s as [|x s IH]; [destruct I|]. cbn [mapM]. destruct I as [->|I].
  - rewrite K. reflexivity.
  - unfold ctype at 1. destruct ((-1 <=? x) && (x <=? 255)); cbn [bind]; auto. rewrite IH by auto. reflexivity.
Qed.
Print Assumptions C42_split.
Print Assumptions C42_split_items.
Print Assumptions C42_round_trip.
Print Assumptions C42_join_split.
Print Assumptions C42_join_nul_refuted.
Print Assumptions C43_trim.
Print Assumptions C43_trim_exact.
Print Assumptions C43_commute.
Print Assumptions C43_trim_high_refuted.
Print Assumptions C72_case_ascii.
Print Assumptions C72_case_high_refuted.
