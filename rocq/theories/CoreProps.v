(** Properties of edsp::core: environment access, build information, logging. *)
From Verif Require Import Base BaseProofs CoreModel CoreSpec CoreProofs.
Local Open Scope Z_scope.

(** ** C92: environment variables *)

(** Reading, testing and setting variables behaves like a map from names to values,
    over every history, as long as no value is empty. *)
Theorem C92_environment_partial : forall env m h, represents env m -> no_empty m ->
  Forall call_ok h -> Forall sets_nonempty h ->
  exists env', env_run env h = Ok (env', env_spec m h).
Proof.
  intros env m h Hr Hm Hok Hs. rewrite <- (env_specs_agree h m Hm Hs). apply env_run_actual; assumption.
Qed.

(** In general a variable with an empty value is treated as missing. *)
Theorem C92_environment_actual : forall env m h, represents env m -> Forall call_ok h ->
  exists env', env_run env h = Ok (env', env_spec_actual m h).
Proof. intros; apply env_run_actual; assumption. Qed.

(** So a variable set to "" is reported as not found straight after. *)
Theorem C92_empty_value_refuted : forall env n, valid_name n ->
  exists env', env_run env [CSet n [] true; CGet n; CExist n] =
    Ok (env', [RSet no_error; RGet (inr not_found); RExist false]) /\ env_holds env' n [].
Proof.
  intros env n Hn. assert (Hv : valid_value []) by (intros []).
  exists (fst (setenv env n [] true)). destruct (setenv_spec env n [] true Hn) as [_ G].
  assert (Gn : getenv (fst (setenv env n [] true)) n = Some []).
  { rewrite (G n Hn). unfold vset. rewrite (proj2 (eqs_spec n n) eq_refl). destruct (getenv env n); reflexivity. }
  split; [|apply getenv_holds; [apply Hn|exact Gn]].
  cbn [env_run]. rewrite (set_env_lit _ _ _ _ Hn Hv). cbn [bind fst snd].
  rewrite (get_env_lit _ _ Hn). cbn [bind fst snd]. rewrite (exist_lit _ _ Hn). cbn [bind fst snd]. rewrite Gn. reflexivity.
Qed.

(** A name containing '=' is an invalid argument; it is reported as unknown. *)
Theorem C92_invalid_name_refuted : forall env n v o, ~ In 0 n -> ~ In 0 v -> In 61 n ->
  set_env env (lit n) (lit v) o = Ok (env, unknown).
Proof.
  intros env n v o Hn Hv He. unfold set_env.
  assert (Hne : n <> []) by (intros ->; destruct He).
  rewrite (lit_len _ Hne), (c_string_lit _ Hn), (c_string_lit _ Hv). cbn [bind].
  unfold setenv. destruct n as [|c n]; [congruence|].
  replace (existsb (Z.eqb equals_sign) (c :: n)) with true; [reflexivity|].
  symmetry. apply existsb_exists. exists 61. split; [exact He|reflexivity].
Qed.

(** The empty name is rejected by every call that gets a terminated string. *)
Theorem C92_empty_name : forall env v o, ~ In 0 v ->
  get_env env (lit []) = Ok (inr empty_name) /\ set_env env (lit []) (lit v) o = Ok (env, empty_name) /\
  exist env (lit []) = Ok false.
Proof. intros. repeat split; reflexivity. Qed.

(** The empty view of a default-constructed string_view has no terminator: undefined
    behaviour when reading or testing, although setting rejects it. *)
Theorem C92_null_view_refuted : forall env v o,
  get_env env (mkView None 0) = UB /\ exist env (mkView None 0) = UB /\
  set_env env (mkView None 0) v o = Ok (env, empty_name).
Proof. intros. repeat split; reflexivity. Qed.

(** A view of the first [k] characters of a longer string names the variable of the
    longer string, whatever [k]. *)
Theorem C92_view_length_ignored_refuted : forall env s rest k, ~ In 0 s -> s <> [] -> (0 < k)%nat ->
  get_env env (mkView (Some (s ++ 0 :: rest)) k) = get_env env (lit s).
Proof.
  intros env s rest k Hs Hn Hk. unfold get_env, c_string, lit. cbn [data len].
  rewrite (until_nul_app _ _ Hs). rewrite (until_nul_app s [] Hs). cbn [bind].
  destruct k; [lia|]. destruct s; [congruence|]. reflexivity.
Qed.

(** Any environment has its map; a concrete history meets the hypotheses. *)
Example C92_represents : forall env, represents env (getenv env).
Proof. exact represents_any. Qed.

Definition HOME := [72; 79; 77; 69].
Definition demo_env : environment := [[65; 61; 49]; HOME ++ [61; 47; 114]; [66; 61]].   (* A=1 HOME=/r B= *)

Example C92_demo :
  env_run demo_env [CGet HOME; CSet HOME [47; 120] false; CGet HOME; CSet HOME [47; 120] true; CGet HOME; CGet [67]; CSet [67] [51] false; CExist [67]; CGet [66]; CGet [65]]
  = Ok ([[65; 61; 49]; HOME ++ [61; 47; 120]; [66; 61]; [67; 61; 51]],
        [RGet (inl [47; 114]); RSet no_error; RGet (inl [47; 114]); RSet no_error; RGet (inl [47; 120]); RGet (inr not_found);
         RSet no_error; RExist true; RGet (inr not_found); RGet (inl [49])]).
Proof. reflexivity. Qed.

Example C92_demo_hyp : valid_name HOME /\ valid_value [47; 120] /\
  no_empty (fun n => if eqs n HOME then Some [47; 114] else None) /\
  represents [HOME ++ [61; 47; 114]] (fun n => if eqs n HOME then Some [47; 114] else None).
Proof.
  assert (A : forall x l, existsb (Z.eqb x) l = false -> ~ In x l).
  { intros x l H Hi. assert (existsb (Z.eqb x) l = true); [|congruence].
    apply existsb_exists. exists x. split; [exact Hi|apply Z.eqb_refl]. }
  split; [split; [discriminate|split; apply A; reflexivity]|].
  split; [apply A; reflexivity|].
  split; [intros n; destruct (eqs n HOME); discriminate|].
  intros n Hv v. rewrite <- getenv_holds by apply Hv. destruct Hv as [Hn [He _]].
  destruct n as [|c n]; [congruence|]. cbn [getenv getenv_loop].
  destruct (strip_prefix ((c :: n) ++ [equals_sign]) (HOME ++ [61; 47; 114])) as [w|] eqn:E.
  - apply strip_eq in E. apply (name_inj HOME (c :: n)) in E; [|apply A; reflexivity|exact He].
    destruct E as [E1 E2]. rewrite <- E1, <- E2. reflexivity.
  - destruct (eqs (c :: n) HOME) eqn:Eq; [|reflexivity]. apply eqs_spec in Eq. rewrite Eq in E. discriminate.
Qed.

(** ** C93: the environment through the C and Python interfaces *)

(** The C function returns the value and 0, or a null pointer and the error's code. *)
Theorem C93_c_environment : forall env m n, represents env m -> valid_name n ->
  c_get_environment env n =
    Ok (match m n with Some (c :: v) => (Some (c :: v), 0) | _ => (None, 2) end).
Proof.
  intros env m n Hr Hn. unfold c_get_environment. rewrite (get_env_lit _ _ Hn), (represents_getenv _ _ _ Hr Hn).
  cbn [bind]. destruct (getenv env n) as [[|c v]|]; reflexivity.
Qed.

(** An empty name is reported as such, with code 1. *)
Theorem C93_c_empty_name : forall env, c_get_environment env [] = Ok (None, 1).
Proof. reflexivity. Qed.

(** The Python function agrees on variables that exist and are not empty ... *)
Theorem C93_python_environment_partial : forall env m n v, represents env m -> valid_name n ->
  m n = Some v -> v <> [] -> py_get_environment env n = Ok (v, 0).
Proof.
  intros env m n v Hr Hn Hm Hv. unfold py_get_environment. rewrite (C93_c_environment _ _ _ Hr Hn), Hm.
  destruct v; [congruence|]. reflexivity.
Qed.

(** ... and has undefined behaviour on every other: it never returns an error code. *)
Theorem C93_python_missing_variable_refuted : forall env m n, represents env m -> valid_name n ->
  m n = None \/ m n = Some [] -> py_get_environment env n = UB.
Proof.
  intros env m n Hr Hn Hm. unfold py_get_environment. rewrite (C93_c_environment _ _ _ Hr Hn).
  destruct Hm as [-> | ->]; reflexivity.
Qed.

Example C93_demo : c_get_environment demo_env HOME = Ok (Some [47; 114], 0) /\ c_get_environment demo_env [67] = Ok (None, 2) /\
  py_get_environment demo_env HOME = Ok ([47; 114], 0) /\ py_get_environment demo_env [67] = UB.
Proof. repeat split. Qed.

(** ** C94: build information *)

(** Minor and patch numbers, version string, date, time, codec and resampling library
    are what the build was configured with. *)
Theorem C94_build_information_partial : forall b,
  minor_version b = v_minor b /\ patch_version b = v_patch b /\ version b = v_str b /\
  build_date b = b_date b /\ build_time b = b_time b /\ c_get_build_time b = b_time b /\
  (forall c, codec_library b = c <->
     match c with audiofile => use_audiofile b = true | sndfile => use_audiofile b = false /\ use_sndfile b = true
     | codec_unknown => use_audiofile b = false /\ use_sndfile b = false end) /\
  (forall r, resample_library b = r <->
     match r with sample_rate => use_samplerate b = true | resample => use_samplerate b = false /\ use_resample b = true
     | resample_unknown => use_samplerate b = false /\ use_resample b = false end).
Proof.
  intros [ma mi pa vs d t u1 u2 u3 u4 u5 u6 u7]. repeat split; try reflexivity;
    unfold codec_library, resample_library; cbn;
    try (intros <-); try (destruct c); try (destruct r);
    destruct u4, u5, u6, u7; cbn; intuition congruence.
Qed.

(** The major number is the minor one, the date in the C interface is the time, and
    the transform library is reported as FFTW whichever one is used. *)
Theorem C94_build_information_refuted : forall b,
  major_version b = v_minor b /\ c_get_build_date b = b_time b /\
  fft_library b = (if use_fftw b || use_pffft b || use_accelerate b then fftw else fft_unknown).
Proof.
  intros b. repeat split. unfold fft_library. destruct (use_fftw b), (use_pffft b), (use_accelerate b); reflexivity.
Qed.

Example C94_demo : exists b, major_version b <> v_major b /\ c_get_build_date b <> b_date b /\
  use_pffft b = true /\ use_fftw b = false /\ fft_library b = fftw /\ codec_library b = sndfile.
Proof.
  exists (mkBuild 1 0 2 [49] [50] [51] false true false false true true false).
  repeat split; discriminate.
Qed.

(** The platform report is right exactly for the targets listed here; Windows, ARM and
    Microsoft's compiler are reported as unknown. *)
Definition right_os (t : target_os) (s : systems) : Prop :=
  match t, s with
  | T_windows, S_windows | T_ios, S_iOS | T_macos, S_macOS | T_freebsd, S_freeBSD | T_android, S_android | T_linux, S_linux => True
  | _, _ => False end.
Definition right_cpu (t : target_cpu) (p : processors) : Prop :=
  match t, p with T_arm64, P_arm | T_arm32, P_arm | T_x86, P_x86 | T_x64, P_x64 | T_other_cpu, P_unknown => True | _, _ => False end.
Definition right_cc (t : target_cc) (k : compilers) : Prop :=
  match t, k with T_gcc, K_gcc | T_mingw, K_gcc | T_clang, K_clang | T_msvc, K_mvsc | T_other_cc, K_unknown => True | _, _ => False end.

Theorem C94_platform_partial : forall o p k,
  let ms := os_macros o ++ cpu_macros p ++ cc_macros k in
  (right_os o (os ms) <-> o <> T_windows) /\
  (right_cpu p (processor ms) <-> p <> T_arm64 /\ p <> T_arm32) /\
  (right_cc k (compiler ms) <-> k <> T_msvc).
Proof.
  intros o p k; cbv zeta; repeat split; destruct o, p, k; cbn; intuition congruence.
Qed.

Theorem C94_platform_refuted : forall o p k,
  let ms := os_macros o ++ cpu_macros p ++ cc_macros k in
  os ms <> S_windows /\ processor ms <> P_arm /\ compiler ms <> K_mvsc.
Proof. intros o p k; cbv zeta; repeat split; destruct o, p, k; discriminate. Qed.

(** ** C95: log levels and destinations *)

(** Every history either has undefined behaviour or prints every one of its messages,
    each followed by the reset code, and touches no file. *)
Theorem C95_log_output_actual : forall s h,
  (forall s', log_run s h = Ok s' -> exists t, printed h t /\ stdout s' = stdout s ++ t /\ files s' = files s) /\
  (forall t, printed h t -> exists s', log_run s h = Ok s' /\ stdout s' = stdout s ++ t /\ files s' = files s) /\
  log_run s h <> NonFinite.
Proof.
  intros s h. split; [|split].
  - intros s' H. exact (log_run_Ok _ _ _ H).
  - intros t Ht. destruct (printed_run _ _ Ht s) as [s' Hs']. exists s'. split; [exact Hs'|].
    destruct (log_run_Ok _ _ _ Hs') as [t' [Ht' [E1 E2]]]. split; [|exact E2].
    rewrite E1. f_equal. clear -Ht Ht'. revert t Ht. induction Ht'; intros u Hu; inversion Hu; subst; auto.
    assert (E : message_text m a -> message_text m a0 -> a = a0).
    { intros P Q. apply insert_all_Ok in P. apply insert_all_Ok in Q. congruence. }
    rewrite E by assumption. rewrite (IHHt' b0) by assumption. reflexivity.
  - apply log_run_finite.
Qed.

(** Hence the default level filters nothing: for every message and every level set
    before it, even [off], the message is printed in full, and setting a file does not
    divert it. *)
Theorem C95_level_and_path_ignored_refuted : forall s threshold path l m t, message_text m t ->
  exists s', log_run s [SetDefaultLevel threshold; SetDefaultPath path; Message l m] = Ok s' /\
    stdout s' = stdout s ++ t ++ [27; 91; 48; 48; 109] /\ files s' = files s.
Proof.
  intros s th p l m t Hm.
  destruct (C95_log_output_actual s [SetDefaultLevel th; SetDefaultPath p; Message l m]) as [_ [H _]].
  destruct (H (t ++ [27; 91; 48; 48; 109] ++ [])) as [s' Hs'].
  - repeat constructor; assumption.
  - rewrite app_nil_r in Hs'. exists s'; exact Hs'.
Qed.

Example C95_demo : exists s', log_run log_start [SetDefaultLevel off; SetDefaultPath [47; 116]; Message debug [CStr [104; 105]; Int (-40)]] = Ok s' /\
  (severity debug < severity off)%nat /\
  stdout s' = [104; 105; 32; 45; 52; 48; 32; 27; 91; 48; 48; 109] /\ files s' = [].
Proof. eexists. split; [reflexivity|]. cbn. repeat split; lia. Qed.

(** ** C96: log text *)

(** What each insertion contributes. *)
Theorem C96_insertion_actual : forall i,
  (forall t, insert i = Ok t <-> actual_text i (Some t)) /\ (insert i = UB <-> actual_text i None).
Proof.
  intros i. split; [apply insert_Ok|]. pose proof (insert_actual i) as H. split.
  - intros E. rewrite E in H. exact H.
  - intros Hn. pose proof (actual_text_unique _ _ _ H Hn) as E. pose proof (insert_finite i).
    destruct (insert i); simpl in E; congruence.
Qed.

(** It is the intended text for wide integers, C strings, whole strings, colours and spaces. *)
Theorem C96_insertion_partial : forall i,
  match i with
  | Int _ | CStr _ | Colour _ | Endc | Reset | Space => True
  | View v => exists s, v = lit s /\ ~ In 0 s
  | _ => False
  end -> exists t, insert i = Ok t /\ intended_text i t.
Proof.
  intros [z|z|s|v|c| | | | |] H; try contradiction; cbn; try (eexists; split; reflexivity).
  - exists (decimal z ++ [32]). split; [reflexivity|]. exists (decimal z). split; [apply decimal_ok|reflexivity].
  - destruct H as [s [-> Hs]]. rewrite (c_string_lit _ Hs). cbn. exists (s ++ [32]). split; [reflexivity|].
    rewrite firstn_app, firstn_all, Nat.sub_diag. cbn. rewrite app_nil_r. reflexivity.
  - exists (colour_code c). split; [reflexivity|]. destruct c; reflexivity.
Qed.

(** It is not for tabs and line ends, which insert the numbers 9 and 10, for 8-bit
    integers, which insert a character, and for a view of part of a string. *)
Theorem C96_insertion_refuted :
  (forall t, insert Tab = Ok t -> t = [57; 32] /\ ~ intended_text Tab t) /\
  (forall t, insert Endl = Ok t -> t = [49; 48; 32] /\ ~ intended_text Endl t) /\
  (forall z t, insert (Int8 z) = Ok t -> t = [z; 32] /\ (intended_text (Int8 z) t -> False)) /\
  (forall s k rest, ~ In 0 s -> (k < length s)%nat ->
     exists t, insert (View (mkView (Some (s ++ 0 :: rest)) k)) = Ok t /\ ~ intended_text (View (mkView (Some (s ++ 0 :: rest)) k)) t).
Proof.
  repeat split.
  - inversion H; reflexivity.
  - inversion H; cbn; discriminate.
  - inversion H; reflexivity.
  - inversion H; cbn; discriminate.
  - inversion H; reflexivity.
  - inversion H; subst. cbn. intros [d [Hd E]].
    assert (d = [z]) by (change [z; 32] with ([z] ++ [32]) in E; apply app_inj_tail in E; destruct E; congruence). subst d.
    destruct Hd as [ds [E1 [D1 [D2 [_ D3]]]]]. destruct (Z.ltb_spec z 0) as [Hz|Hz].
    + inversion E1; subst. congruence.
    + subst ds. cbn [digits_value] in D3. rewrite Z.abs_eq in D3 by lia. lia.
  - intros s k rest Hs Hk. cbn. unfold c_string. cbn. rewrite (until_nul_app _ _ Hs). cbn.
    exists (s ++ [32]). split; [reflexivity|]. intros E.
    rewrite firstn_app in E. replace (k - length s)%nat with 0%nat in E by lia. cbn in E. rewrite app_nil_r in E.
    apply app_inj_tail in E as [E _]. apply (f_equal (@length Z)) in E. rewrite firstn_length in E. lia.
Qed.

Example C96_demo : insert_all [Int 0; Int (-1203); Tab; Endl; Int8 65; View (mkView (Some [97; 98; 0; 99]) 1)] =
  Ok [48; 32; 45; 49; 50; 48; 51; 32; 57; 32; 49; 48; 32; 65; 32; 97; 98; 32].
Proof. reflexivity. Qed.
Print Assumptions C92_environment_partial.
Print Assumptions C92_environment_actual.
Print Assumptions C92_empty_value_refuted.
Print Assumptions C92_invalid_name_refuted.
Print Assumptions C92_empty_name.
Print Assumptions C92_null_view_refuted.
Print Assumptions C92_view_length_ignored_refuted.
Print Assumptions C93_c_environment.
Print Assumptions C93_c_empty_name.
Print Assumptions C93_python_environment_partial.
Print Assumptions C93_python_missing_variable_refuted.
Print Assumptions C94_build_information_partial.
Print Assumptions C94_build_information_refuted.
Print Assumptions C94_platform_partial.
Print Assumptions C94_platform_refuted.
Print Assumptions C95_log_output_actual.
Print Assumptions C95_level_and_path_ignored_refuted.
Print Assumptions C96_insertion_actual.
Print Assumptions C96_insertion_partial.
Print Assumptions C96_insertion_refuted.
