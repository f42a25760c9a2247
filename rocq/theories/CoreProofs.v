From Coq Require Import Decimal DecimalFacts DecimalPos DecimalN DecimalZ.
From Verif Require Import Base BaseProofs CoreModel CoreSpec.
Local Open Scope res_scope.
Local Open Scope Z_scope.

(** * Strings *)

Lemma eqs_spec a b : eqs a b = true <-> a = b.
Proof.
  revert b; induction a as [|x a IH]; intros [|y b]; simpl; split; intros H; try discriminate; auto.
  - apply andb_prop in H as [H1 H2]. apply Z.eqb_eq in H1. apply IH in H2. congruence.
  - inversion H; subst. rewrite Z.eqb_refl. apply IH; reflexivity.
Qed.

Lemma until_nul_app s t : ~ In 0 s -> until_nul (s ++ 0 :: t) = Ok s.
Proof.
  induction s as [|c s IH]; intros H; simpl; [reflexivity|].
  destruct (Z.eqb_spec c 0) as [->|Hc]; [exfalso; apply H; left; reflexivity|].
  rewrite IH; [reflexivity|]. intros Hi; apply H; right; exact Hi.
Qed.

Lemma until_nul_none b : ~ In 0 b -> until_nul b = UB.
Proof.
  induction b as [|c b IH]; intros H; simpl; [reflexivity|].
  destruct (Z.eqb_spec c 0) as [->|Hc]; [exfalso; apply H; left; reflexivity|].
  rewrite IH; [reflexivity|]. intros Hi; apply H; right; exact Hi.
Qed.

Lemma c_string_lit s : ~ In 0 s -> c_string (lit s) = Ok s.
Proof. intros H. unfold c_string, lit; simpl. apply until_nul_app, H. Qed.

Lemma first_nul b : (exists s t, b = s ++ 0 :: t /\ ~ In 0 s) \/ ~ In 0 b.
Proof.
  induction b as [|c b IH]; [right; intros []|].
  destruct (Z.eq_dec c 0) as [->|Hc]; [left; exists [], b; split; [reflexivity|intros []]|].
  destruct IH as [[s [t [-> Hs]]]|Hn].
  - left. exists (c :: s), t. split; [reflexivity|]. intros [H|H]; [congruence|contradiction].
  - right. intros [H|H]; [congruence|contradiction].
Qed.

(** * The environment *)

Lemma strip_prefix_spec p s v : strip_prefix p s = Some v <-> s = p ++ v.
Proof.
  revert s; induction p as [|x p IH]; intros s; simpl; [split; congruence|].
  destruct s as [|y s]; [split; discriminate|].
  destruct (Z.eqb_spec x y) as [->|Hn].
  - rewrite IH. split; intros H; [congruence|]. inversion H; reflexivity.
  - split; [discriminate|]. intros H; inversion H; congruence.
Qed.

Lemma strip_eq n e v : strip_prefix (n ++ [equals_sign]) e = Some v <-> e = n ++ 61 :: v.
Proof. rewrite strip_prefix_spec, <- app_assoc. reflexivity. Qed.

Lemma strip_none n e : strip_prefix (n ++ [equals_sign]) e = None <-> forall w, e <> n ++ 61 :: w.
Proof.
  split.
  - intros H w E. apply strip_eq in E. congruence.
  - intros H. destruct (strip_prefix _ _) eqn:E; [|reflexivity]. apply strip_eq in E. elim (H _ E).
Qed.

Lemma getenv_holds env n v : n <> [] -> (getenv env n = Some v <-> env_holds env n v).
Proof.
  intros Hn. unfold getenv. destruct n as [|c n]; [congruence|]. set (nm := c :: n). clearbody nm.
  unfold env_holds. induction env as [|e env IH]; simpl.
  - split; [discriminate|]. intros [pre [post [E _]]]. destruct pre; discriminate.
  - destruct (strip_prefix (nm ++ [equals_sign]) e) as [w|] eqn:E.
    + apply strip_eq in E. subst e. split.
      * intros H; inversion H; subst. exists [], env. split; [reflexivity|intros ? []].
      * intros [pre [post [E H]]]. destruct pre as [|x pre].
        -- simpl in E. inversion E as [[E1 E2]]. apply app_inv_head in E1. congruence.
        -- simpl in E. inversion E; subst. elim (H w). left; reflexivity.
    + pose proof (proj1 (strip_none _ _) E) as Hno. rewrite IH. split.
      * intros [pre [post [-> H]]]. exists (e :: pre), post. split; [reflexivity|].
        intros w [Hw|Hw]; [exact (Hno w Hw)|exact (H w Hw)].
      * intros [pre [post [E' H]]]. destruct pre as [|x pre].
        -- simpl in E'. inversion E'; subst. elim (Hno v); reflexivity.
        -- simpl in E'. inversion E'; subst. exists pre, post. split; [reflexivity|].
           intros w Hw; apply (H w); right; exact Hw.
Qed.

Lemma represents_getenv env m n : represents env m -> valid_name n -> m n = getenv env n.
Proof.
  intros H Hn. destruct (getenv env n) as [v|] eqn:E.
  - apply (H n Hn). apply getenv_holds; [apply Hn|exact E].
  - destruct (m n) as [v|] eqn:E'; [|reflexivity].
    apply (H n Hn) in E'. apply getenv_holds in E'; [congruence|apply Hn].
Qed.

Lemma represents_any env : represents env (getenv env).
Proof. intros n Hn v. apply getenv_holds, Hn. Qed.

Lemma name_inj n m v w : ~ In 61 n -> ~ In 61 m -> n ++ 61 :: v = m ++ 61 :: w -> n = m /\ v = w.
Proof.
  revert m; induction n as [|x n IH]; intros [|y m] H1 H2 E; simpl in E; inversion E; subst; auto.
  - exfalso; apply H2; left; reflexivity.
  - exfalso; apply H1; left; reflexivity.
  - destruct (IH m) as [-> ->]; auto; intros Hi; [apply H1|apply H2]; right; exact Hi.
Qed.

Lemma loop_replace_same env n v : getenv_loop (replace_entry env n v) n = Some v.
Proof.
  assert (Hs : strip_prefix (n ++ [equals_sign]) (n ++ equals_sign :: v) = Some v) by (apply strip_eq; reflexivity).
  induction env as [|e env IH]; simpl; [rewrite Hs; reflexivity|].
  destruct (strip_prefix (n ++ [equals_sign]) e) eqn:E; simpl; [rewrite Hs; reflexivity|].
  rewrite E. exact IH.
Qed.

Lemma loop_replace_other env n m v : ~ In 61 n -> ~ In 61 m -> m <> n ->
  getenv_loop (replace_entry env n v) m = getenv_loop env m.
Proof.
  intros H1 H2 Hne.
  assert (Hs : strip_prefix (m ++ [equals_sign]) (n ++ equals_sign :: v) = None).
  { apply strip_none. intros w E. apply name_inj in E; [|assumption|assumption]. destruct E; congruence. }
  induction env as [|e env IH]; simpl; [rewrite Hs; reflexivity|].
  destruct (strip_prefix (n ++ [equals_sign]) e) eqn:E; simpl.
  - rewrite Hs. apply strip_eq in E. subst e.
    replace (strip_prefix (m ++ [equals_sign]) (n ++ 61 :: l)) with (@None (list Z)); [reflexivity|].
    symmetry. apply strip_none. intros w E. apply name_inj in E; [|assumption|assumption]. destruct E; congruence.
  - rewrite IH. reflexivity.
Qed.

Lemma setenv_spec env n v o : valid_name n ->
  snd (setenv env n v o) = 0 /\
  forall m, valid_name m -> getenv (fst (setenv env n v o)) m = vset (getenv env) n v o m.
Proof.
  intros [Hn [He H0]]. unfold setenv. destruct n as [|c n]; [congruence|]. set (nm := c :: n) in *.
  assert (Hx : existsb (Z.eqb equals_sign) nm = false).
  { apply Bool.not_true_is_false. intros H. apply existsb_exists in H as [x [Hi Hx]].
    apply Z.eqb_eq in Hx. apply He. unfold equals_sign in Hx. subst x; exact Hi. }
  rewrite Hx.
  assert (Hg : getenv env nm = getenv_loop env nm) by reflexivity.
  assert (Hrep : forall m, valid_name m -> getenv (replace_entry env nm v) m = if eqs m nm then Some v else getenv env m).
  { intros m [Hm [Hme _]]. destruct m as [|c' m]; [congruence|]. set (mm := c' :: m) in *.
    change (getenv (replace_entry env nm v) mm) with (getenv_loop (replace_entry env nm v) mm).
    change (getenv env mm) with (getenv_loop env mm).
    destruct (eqs mm nm) eqn:E.
    - apply eqs_spec in E. rewrite E. apply loop_replace_same.
    - apply loop_replace_other; auto. intros Heq. apply eqs_spec in Heq. congruence. }
  unfold vset. destruct (getenv env nm) eqn:E.
  - destruct o; cbn [fst snd]; split; auto.
    intros m Hm. destruct (eqs m nm) eqn:Em; [|reflexivity]. apply eqs_spec in Em. subst m. exact E.
  - cbn [fst snd]. split; auto.
Qed.

Lemma lit_len n : n <> [] -> (len (lit n) =? 0)%nat = false.
Proof. destruct n; [congruence|reflexivity]. Qed.

Lemma get_env_lit env n : valid_name n ->
  get_env env (lit n) = Ok (match getenv env n with Some (c :: v) => inl (c :: v) | _ => inr not_found end).
Proof.
  intros [Hn [_ H0]]. unfold get_env. rewrite (c_string_lit _ H0). cbn [bind]. rewrite (lit_len _ Hn).
  destruct (getenv env n) as [[|c v]|]; reflexivity.
Qed.

Lemma exist_lit env n : valid_name n ->
  exist env (lit n) = Ok (match getenv env n with Some (_ :: _) => true | _ => false end).
Proof.
  intros [Hn [_ H0]]. unfold exist. rewrite (c_string_lit _ H0). cbn [bind].
  destruct (getenv env n) as [[|c v]|]; reflexivity.
Qed.

Lemma set_env_lit env n v o : valid_name n -> valid_value v ->
  set_env env (lit n) (lit v) o = Ok (fst (setenv env n v o), no_error).
Proof.
  intros Hn Hv. unfold set_env. rewrite (lit_len _ (proj1 Hn)).
  rewrite (c_string_lit _ (proj2 (proj2 Hn))), (c_string_lit _ Hv). cbn [bind].
  rewrite (proj1 (setenv_spec env n v o Hn)). reflexivity.
Qed.

Lemma represents_set env m n v o : represents env m -> valid_name n ->
  represents (fst (setenv env n v o)) (vset m n v o).
Proof.
  intros H Hn k Hk w. rewrite <- getenv_holds by apply Hk.
  rewrite (proj2 (setenv_spec env n v o Hn) k Hk). unfold vset.
  rewrite (represents_getenv _ _ _ H Hn), (represents_getenv _ _ _ H Hk). reflexivity.
Qed.

Lemma env_run_actual h : forall env m, represents env m -> Forall call_ok h ->
  exists env', env_run env h = Ok (env', env_spec_actual m h).
Proof.
  induction h as [|c h IH]; intros env m H Hok; [exists env; reflexivity|].
  inversion Hok as [|? ? Hc Ht]; subst. destruct c as [n|n|n v o]; cbn [env_run env_spec_actual]; simpl in Hc.
  - rewrite (get_env_lit _ _ Hc). cbn [bind fst snd].
    destruct (IH env m H Ht) as [env' ->]. exists env'. cbn [bind fst snd].
    rewrite (represents_getenv _ _ _ H Hc). reflexivity.
  - rewrite (exist_lit _ _ Hc). cbn [bind fst snd].
    destruct (IH env m H Ht) as [env' ->]. exists env'. cbn [bind fst snd].
    rewrite (represents_getenv _ _ _ H Hc). reflexivity.
  - destruct Hc as [Hn Hv]. rewrite (set_env_lit _ _ _ _ Hn Hv). cbn [bind fst snd].
    destruct (IH _ _ (represents_set env m n v o H Hn) Ht) as [env' ->]. exists env'. reflexivity.
Qed.

Lemma env_specs_agree h : forall m, no_empty m -> Forall sets_nonempty h -> env_spec_actual m h = env_spec m h.
Proof.
  induction h as [|c h IH]; intros m Hm Hs; [reflexivity|].
  inversion Hs as [|? ? Hc Ht]; subst. destruct c as [n|n|n v o]; cbn [env_spec env_spec_actual].
  - rewrite IH by assumption. pose proof (Hm n). destruct (m n) as [[|]|]; congruence.
  - rewrite IH by assumption. pose proof (Hm n). destruct (m n) as [[|]|]; congruence.
  - rewrite IH; [reflexivity| |assumption]. intros k. unfold vset. simpl in Hc.
    pose proof (Hm n) as Hmn. pose proof (Hm k). destruct (eqs k n); [|assumption].
    destruct (m n) as [old|]; [destruct o|]; congruence.
Qed.

(** * Decimal rendering *)

Lemma digits_acc u : forall acc, digits_value (Zpos acc) (digits u) = Zpos (Pos.of_uint_acc u acc).
Proof.
  induction u; intros acc; cbn [digits digits_value Pos.of_uint_acc]; [reflexivity|..];
    rewrite <- IHu; f_equal; lia.
Qed.

Lemma digits_of_uint u : digits_value 0 (digits u) = Z.of_N (Pos.of_uint u).
Proof.
  induction u; cbn [digits digits_value Pos.of_uint Z.of_N]; [reflexivity|exact IHu|..]; rewrite <- digits_acc; reflexivity.
Qed.

Lemma digits_are u : Forall is_digit (digits u).
Proof. induction u; simpl; constructor; auto; unfold is_digit; lia. Qed.

Lemma digits_head u : nzhead u = u -> u <> Nil -> hd 48 (digits u) <> 48.
Proof.
  destruct u; simpl; intros H Hn; try lia; try congruence.
  exfalso. assert (K : forall w, (Decimal.nb_digits (nzhead w) <= Decimal.nb_digits w)%nat).
  { induction w; simpl; lia. }
  pose proof (K u) as K1. rewrite H in K1. simpl in K1. lia.
Qed.

Lemma decimal_ok z : writes_decimal (decimal z) z.
Proof.
  unfold decimal. pose proof (DecimalZ.of_to z) as Hz. pose proof (DecimalZ.to_of (Z.to_int z)) as Hn.
  rewrite Hz in Hn. destruct (Z.to_int z) as [u|u] eqn:E.
  - (* non-negative *)
    unfold Z.of_int, Z.of_uint in Hz.
    assert (Hge : z <? 0 = false) by (apply Z.ltb_ge; rewrite <- Hz; lia).
    unfold writes_decimal. rewrite Hge. exists (digits u). split; [reflexivity|].
    split; [apply digits_are|].
    simpl in Hn. injection Hn as Hu. unfold unorm in Hu.
    assert (Hnn : u <> Nil).
    { intros ->. simpl in Hu. discriminate. }
    split; [destruct u; simpl; congruence|].
    split.
    + intros Hh. destruct (nzhead u) eqn:Eu.
      1: { subst u. rewrite <- Hz. split; reflexivity. }
      all: exfalso; revert Hh; apply digits_head; [congruence|exact Hnn].
    + rewrite digits_of_uint, Hz. symmetry. apply Z.abs_eq. lia.
  - unfold Z.of_int, Z.of_uint in Hz. simpl in Hn.
    destruct (nzhead u) eqn:Eu.
    1: { discriminate. }
    all: injection Hn as Hu; assert (Eu' : nzhead u = u) by congruence;
      assert (Hun : u <> Nil) by congruence;
      pose proof (digits_head u Eu' Hun) as Hh;
      pose proof (digits_of_uint u) as Hv;
      assert (Hpos : Pos.of_uint u <> 0%N);
      [intros Hzero; clear Eu Eu' Hz E; subst u; first [discriminate Hzero|elim Hh; reflexivity]|];
      assert (Hlt : z <? 0 = true) by (apply Z.ltb_lt; rewrite <- Hz; lia);
      unfold writes_decimal; rewrite Hlt; exists (digits u);
      (split; [reflexivity|split; [apply digits_are|split; [rewrite Hu; discriminate|split; [intros K; contradiction|]]]]);
      rewrite Hv, <- Hz, Z.abs_opp; symmetry; apply Z.abs_eq; lia.
Qed.

(** * The logger *)

Definition to_option {A} (r : res A) : option A := match r with Ok a => Some a | _ => None end.

Lemma insert_actual i : actual_text i (to_option (insert i)).
Proof.
  destruct i as [z|z|s|[[b|] k]|c| | | | |]; cbn; try reflexivity.
  - exists (decimal z). split; [apply decimal_ok|reflexivity].
  - unfold c_string; cbn. destruct (first_nul b) as [[s [t [-> Hs]]]|Hn].
    + left. exists s, t. rewrite (until_nul_app _ _ Hs). auto.
    + right. rewrite (until_nul_none _ Hn). auto.
  - destruct c; reflexivity.
Qed.

Lemma digits_value_app a s t : digits_value a (s ++ t) = digits_value (digits_value a s) t.
Proof. revert a; induction s as [|c s IH]; intros a; simpl; [reflexivity|]. apply IH. Qed.

(** Decimal rendering is unique, so the text determines the result. *)
Lemma digits_bound ds : Forall is_digit ds -> forall a, 0 <= a ->
  a * 10 ^ Z.of_nat (length ds) <= digits_value a ds < (a + 1) * 10 ^ Z.of_nat (length ds).
Proof.
  induction 1 as [|c ds Hc Hd IH]; intros a Ha; cbn [digits_value length]; [simpl; lia|].
  unfold is_digit in Hc. rewrite Nat2Z.inj_succ, Z.pow_succ_r by lia.
  specialize (IH (10 * a + (c - 48)) ltac:(lia)).
  assert (0 < 10 ^ Z.of_nat (length ds)) by (apply Z.pow_pos_nonneg; lia). nia.
Qed.

Lemma digits_same_length a b : Forall is_digit a -> Forall is_digit b -> length a = length b ->
  forall x y, 0 <= x -> 0 <= y -> digits_value x a = digits_value y b -> x = y /\ a = b.
Proof.
  intros Ha; revert b; induction Ha as [|c a Hc Ha IH]; intros [|d b] Hb Hl x y Hx Hy E; try discriminate; [auto|].
  inversion Hb as [|? ? Hd Hb']; subst. unfold is_digit in *. cbn [digits_value] in E.
  injection Hl as Hl.
  destruct (IH b Hb' Hl (10 * x + (c - 48)) (10 * y + (d - 48)) ltac:(lia) ltac:(lia) E) as [E1 ->].
  assert (x = y) by lia. assert (c = d) by lia. subst; auto.
Qed.

Lemma writes_decimal_unique s t z : writes_decimal s z -> writes_decimal t z -> s = t.
Proof.
  intros [a [-> [Ha [Hna [Hza Hva]]]]] [b [-> [Hb [Hnb [Hzb Hvb]]]]].
  assert (E : a = b); [|rewrite E; reflexivity].
  destruct (Z.eq_dec z 0) as [->|Hz].
  - assert (K : forall d, Forall is_digit d -> d <> [] -> (hd 48 d = 48 -> 0 = 0 /\ d = [48]) -> digits_value 0 d = 0 -> d = [48]).
    { intros d Hd Hn H V. destruct d as [|c d]; [congruence|]. inversion Hd as [|? ? Hc Hd']; subst. unfold is_digit in Hc.
      apply H. cbn [hd]. cbn [digits_value] in V. pose proof (digits_bound d Hd' (10 * 0 + (c - 48)) ltac:(lia)) as B.
      assert (0 < 10 ^ Z.of_nat (length d)) by (apply Z.pow_pos_nonneg; lia). nia. }
    rewrite (K a), (K b); auto.
  - assert (K : forall d, Forall is_digit d -> d <> [] -> (hd 48 d = 48 -> z = 0 /\ d = [48]) -> digits_value 0 d = Z.abs z ->
        10 ^ (Z.of_nat (length d) - 1) <= Z.abs z < 10 ^ Z.of_nat (length d)).
    { intros d Hd Hn H V. destruct d as [|c d]; [congruence|]. inversion Hd as [|? ? Hc Hd']; subst. unfold is_digit in Hc.
      assert (c <> 48) by (intros ->; destruct (H eq_refl); contradiction).
      pose proof (digits_bound d Hd' (c - 48) ltac:(lia)) as B. cbn [digits_value] in V. replace (10 * 0 + (c - 48)) with (c - 48) in V by lia.
      rewrite V in B. cbn [length]. rewrite Nat2Z.inj_succ. replace (Z.succ (Z.of_nat (length d)) - 1) with (Z.of_nat (length d)) by lia.
      rewrite Z.pow_succ_r by lia. assert (0 < 10 ^ Z.of_nat (length d)) by (apply Z.pow_pos_nonneg; lia). nia. }
    pose proof (K a Ha Hna Hza Hva) as Ka. pose proof (K b Hb Hnb Hzb Hvb) as Kb.
    assert (La : (0 < length a)%nat) by (destruct a; simpl; [congruence|lia]).
    assert (Lb : (0 < length b)%nat) by (destruct b; simpl; [congruence|lia]).
    assert (Hl : length a = length b).
    { destruct (lt_eq_lt_dec (length a) (length b)) as [[H|H]|H]; [exfalso|exact H|exfalso].
      - assert (10 ^ Z.of_nat (length a) <= 10 ^ (Z.of_nat (length b) - 1)) by (apply Z.pow_le_mono_r; lia). lia.
      - assert (10 ^ Z.of_nat (length b) <= 10 ^ (Z.of_nat (length a) - 1)) by (apply Z.pow_le_mono_r; lia). lia. }
    apply (digits_same_length a b Ha Hb Hl 0 0); lia.
Qed.

Lemma actual_text_unique i r r' : actual_text i r -> actual_text i r' -> r = r'.
Proof.
  destruct i as [z|z|s|[[b|] k]|c| | | | |]; cbn; try congruence.
  - intros [d [Hd ->]] [d' [Hd' ->]]. rewrite (writes_decimal_unique _ _ _ Hd Hd'). reflexivity.
  - intros [[s [t [E [Hs ->]]]]|[Hn ->]] [[s' [t' [E' [Hs' ->]]]]|[Hn' ->]]; try reflexivity.
    + assert (K : Ok s = Ok s'); [|inversion K; reflexivity].
      rewrite <- (until_nul_app s t Hs), <- (until_nul_app s' t' Hs'), <- E, <- E'. reflexivity.
    + exfalso. apply Hn'. rewrite E. apply in_or_app; right; left; reflexivity.
    + exfalso. apply Hn. rewrite E'. apply in_or_app; right; left; reflexivity.
Qed.

Lemma until_nul_finite b : until_nul b <> NonFinite.
Proof. induction b as [|c b IH]; simpl; [discriminate|]. destruct (c =? 0); [discriminate|]. destruct (until_nul b); simpl; congruence. Qed.

Lemma insert_finite i : insert i <> NonFinite.
Proof.
  destruct i as [z|z|s|[[b|] k]|c| | | | |]; cbn; try discriminate.
  unfold c_string; cbn. pose proof (until_nul_finite b). destruct (until_nul b); simpl; congruence.
Qed.

Lemma insert_Ok i a : insert i = Ok a <-> actual_text i (Some a).
Proof.
  pose proof (insert_actual i) as H. split.
  - intros E. rewrite E in H. exact H.
  - intros Ha. pose proof (actual_text_unique _ _ _ H Ha) as E. destruct (insert i); simpl in E; congruence.
Qed.

Lemma insert_all_Ok l a : insert_all l = Ok a <-> message_text l a.
Proof.
  revert a; induction l as [|i l IH]; intros a; simpl.
  - split; [intros H; inversion H; constructor|intros H; inversion H; reflexivity].
  - rewrite bind_Ok. split.
    + intros [x [Hx H]]. apply bind_Ok in H as [y [Hy H]]. inversion H; subst.
      constructor; [apply insert_Ok, Hx|apply IH, Hy].
    + intros H; inversion H; subst. exists a0. split; [apply insert_Ok; assumption|].
      apply bind_Ok. exists b. split; [apply IH; assumption|reflexivity].
Qed.

Lemma insert_all_finite l : insert_all l <> NonFinite.
Proof.
  induction l as [|i l IH]; simpl; [discriminate|]. pose proof (insert_finite i).
  destruct (insert i); simpl; try congruence. destruct (insert_all l); simpl; congruence.
Qed.

Lemma log_run_Ok h : forall s s', log_run s h = Ok s' ->
  exists t, printed h t /\ stdout s' = stdout s ++ t /\ files s' = files s.
Proof.
  induction h as [|c h IH]; intros s s' H; simpl in H.
  - inversion H; subst. exists []. rewrite app_nil_r. repeat split; constructor.
  - apply bind_Ok in H as [s1 [H1 H]]. destruct (IH _ _ H) as [t [Ht [E1 E2]]].
    destruct c; simpl in H1; try (inversion H1; subst; exists t; simpl in *; repeat split; auto; constructor; assumption).
    apply bind_Ok in H1 as [a [Ha H1]]. apply insert_all_Ok in Ha. inversion H1; subst; simpl in *.
    exists (a ++ [27; 91; 48; 48; 109] ++ t). split; [constructor; assumption|].
    split; [|assumption]. rewrite E1. unfold reset_code. rewrite !app_assoc. reflexivity.
Qed.

Lemma printed_run h t : printed h t -> forall s, exists s', log_run s h = Ok s'.
Proof.
  induction 1; intros s; simpl; try (apply IHprinted); [exists s; reflexivity|].
  apply insert_all_Ok in H. rewrite H. simpl. apply IHprinted.
Qed.

Lemma log_run_finite h : forall s, log_run s h <> NonFinite.
Proof.
  induction h as [|c h IH]; intros s; simpl; [discriminate|].
  destruct c; simpl; try apply IH. pose proof (insert_all_finite msg).
  destruct (insert_all msg); simpl; solve [congruence|apply IH].
Qed.
