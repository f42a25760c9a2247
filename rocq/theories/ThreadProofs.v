(** Invariants of processes with several threads. *)
From Coq Require Import Lia.
From Verif Require Import Base CoreModel CoreSpec CoreProofs ThreadModel ThreadSpec.
Local Open Scope Z_scope.

Lemma put_length {A} (l : list A) : forall i x, length (put l i x) = length l.
Proof. induction l as [|y l IH]; intros [|i] x; simpl; auto. Qed.
Lemma put_same {A} (l : list A) : forall i x y, nth_error l i = Some y -> nth_error (put l i x) i = Some x.
Proof. induction l as [|z l IH]; intros [|i] x y H; simpl in *; try discriminate; auto. eapply IH; eauto. Qed.
Lemma put_other {A} (l : list A) : forall i j x, i <> j -> nth_error (put l i x) j = nth_error l j.
Proof. induction l as [|z l IH]; intros [|i] [|j] x H; simpl; auto; try congruence. Qed.
Lemma put_map {A B} (f : A -> B) (l : list A) : forall i x, map f (put l i x) = put (map f l) i (f x).
Proof. induction l as [|z l IH]; intros [|i] x; simpl; auto. rewrite IH. reflexivity. Qed.

Lemma calls_app a b : calls (a ++ b) = calls a ++ calls b.
Proof. induction a as [|[] a IH]; simpl; auto; rewrite IH; reflexivity. Qed.
Lemma results_app a b : results (a ++ b) = results a ++ results b.
Proof. induction a as [|[] a IH]; simpl; auto; rewrite IH; reflexivity. Qed.
Lemma actions_app k a b : actions_of k (a ++ b) = actions_of k a ++ actions_of k b.
Proof. induction a as [|[] a IH]; simpl; auto; rewrite IH; destruct (Nat.eqb t k); reflexivity. Qed.

Lemma env_run_app h : forall env env' rs c env'' r,
  env_run env h = Ok (env', rs) -> env_run env' [c] = Ok (env'', [r]) ->
  env_run env (h ++ [c]) = Ok (env'', rs ++ [r]).
Proof.
  induction h as [|d h IH]; intros env env' rs c env'' r H1 H2.
  - simpl in H1. inversion H1; subst. exact H2.
  - cbn [env_run app] in *.
    match type of H1 with bind ?e _ = _ => destruct e as [p| |] eqn:E end; cbn [bind] in *; try discriminate.
    destruct (env_run (fst p) h) as [q| |] eqn:E2; cbn [bind] in H1; try discriminate.
    inversion H1; subst. destruct q as [q1 q2]. cbn [fst snd] in *.
    erewrite IH; eauto. reflexivity.
Qed.

(** The loop of the C library against the sequential functions. *)
Definition unmatched (n : list Z) (env : environment) : Prop :=
  Forall (fun e => strip_prefix (n ++ [equals_sign]) e = None) env.
Definition scannable (c : env_call) : Prop :=
  name_of c <> [] /\ match c with CSet n _ _ => existsb (Z.eqb equals_sign) n = false | _ => True end.

Lemma getenv_first n a e v b : n <> [] -> unmatched n a -> strip_prefix (n ++ [equals_sign]) e = Some v ->
  getenv (a ++ e :: b) n = Some v.
Proof.
  intros Hn Ha He. replace (getenv (a ++ e :: b) n) with (getenv_loop (a ++ e :: b) n) by (destruct n; [congruence|reflexivity]).
  clear Hn. induction Ha as [|x a Hx _ IH].
  - cbn [app getenv_loop]. rewrite He. reflexivity.
  - cbn [app getenv_loop]. rewrite Hx. exact IH.
Qed.
Lemma getenv_none n a : unmatched n a -> getenv a n = None.
Proof.
  intros Ha. assert (G : getenv_loop a n = None); [|unfold getenv; destruct n; [reflexivity|exact G]]. induction Ha as [|x a Hx _ IH]; [reflexivity|].
  cbn [getenv_loop]. rewrite Hx. exact IH.
Qed.
Lemma replace_first n w a e v b : unmatched n a -> strip_prefix (n ++ [equals_sign]) e = Some v ->
  replace_entry (a ++ e :: b) n w = a ++ (n ++ equals_sign :: w) :: b.
Proof.
  intros Ha He. induction Ha as [|x a Hx _ IH]; cbn [app replace_entry]; [rewrite He; reflexivity|].
  rewrite Hx, IH. reflexivity.
Qed.
Lemma replace_none n w a : unmatched n a -> replace_entry a n w = a ++ [n ++ equals_sign :: w].
Proof.
  intros Ha. induction Ha as [|x a Hx _ IH]; cbn [app replace_entry]; [reflexivity|]. rewrite Hx, IH. reflexivity.
Qed.
Lemma put_app {A} (a : list A) y b x : put (a ++ y :: b) (length a) x = a ++ x :: b.
Proof. induction a; simpl; congruence. Qed.

Lemma run_get env n : ~ In 0 n -> n <> [] ->
  env_run env [CGet n] = Ok (env, [RGet (match getenv env n with Some (c :: v) => inl (c :: v) | _ => inr not_found end)]).
Proof.
  intros H0 Hn. cbn [env_run]. unfold get_env. rewrite (c_string_lit _ H0). cbn [bind]. rewrite (lit_len _ Hn).
  destruct (getenv env n) as [[|x v]|]; reflexivity.
Qed.
Lemma run_exist env n : ~ In 0 n -> n <> [] ->
  env_run env [CExist n] = Ok (env, [RExist (match getenv env n with Some (_ :: _) => true | _ => false end)]).
Proof.
  intros H0 Hn. cbn [env_run]. unfold exist. rewrite (c_string_lit _ H0). cbn [bind].
  destruct (getenv env n) as [[|x v]|]; reflexivity.
Qed.
Lemma run_set env n w o : ~ In 0 n -> ~ In 0 w -> n <> [] ->
  env_run env [CSet n w o] = Ok (fst (setenv env n w o), [RSet (error_of_int (snd (setenv env n w o)))]).
Proof.
  intros H0 Hw Hn. cbn [env_run]. unfold set_env. rewrite (lit_len _ Hn), (c_string_lit _ H0), (c_string_lit _ Hw). reflexivity.
Qed.

Definition leaves (env : environment) (m : memory) (c : env_call) (k : control) : Prop :=
  exists r v, k = Leaving c r v /\ env_run env [c] = Ok (strings m, [r]).

Lemma enter_ok m c : no_nul c -> leaves (strings m) m c (enter c) \/ (enter c = Scanning c 0 /\ scannable c).
Proof.
  intros Hc. destruct c as [[|x n]|[|x n]|[|x n] w o]; cbn [enter] in *.
  - left. do 2 eexists. split; reflexivity.
  - right. split; [reflexivity|]. split; [discriminate|exact I].
  - left. do 2 eexists. split; reflexivity.
  - right. split; [reflexivity|]. split; [discriminate|exact I].
  - left. do 2 eexists. split; [reflexivity|]. destruct Hc. reflexivity.
  - destruct (existsb (Z.eqb equals_sign) (x :: n)) eqn:E.
    + left. do 2 eexists. split; [reflexivity|]. destruct Hc as [H1 H2].
      rewrite run_set by (assumption || discriminate). unfold setenv. rewrite E. reflexivity.
    + right. split; [reflexivity|]. split; [discriminate|exact E].
Qed.

Lemma scan_ok m c i : no_nul c -> scannable c -> (i <= length (strings m))%nat -> unmatched (name_of c) (firstn i (strings m)) ->
  leaves (strings m) (fst (scan m c i)) c (snd (scan m c i)) \/
  (scan m c i = (m, Scanning c (S i)) /\ (S i <= length (strings m))%nat /\ unmatched (name_of c) (firstn (S i) (strings m))).
Proof.
  intros Hc [Hn Hs] Hi Hu. unfold scan.
  destruct (nth_error (entries m) i) as [[a e]|] eqn:E.
  - cbn [fst snd].
    assert (Es : nth_error (strings m) i = Some e) by (unfold strings; rewrite nth_error_map, E; reflexivity).
    assert (Hl : (i < length (strings m))%nat) by (apply nth_error_Some; congruence).
    assert (Sp : strings m = firstn i (strings m) ++ e :: skipn (S i) (strings m)).
    { rewrite <- (firstn_skipn i (strings m)) at 1. f_equal.
      clear - Es. revert i Es. induction (strings m) as [|x l IH]; intros [|i] H; simpl in *; try discriminate.
      - congruence. - apply IH, H. }
    destruct (strip_prefix (name_of c ++ [equals_sign]) e) as [v|] eqn:V.
    + left. destruct c as [n|n|n w o]; cbn [hit name_of no_nul] in *.
      * pose proof (getenv_first n _ _ _ (skipn (S i) (strings m)) Hn Hu V) as G. rewrite <- Sp in G.
        destruct v as [|x v]; cbn [is_null]; do 2 eexists; (split; [reflexivity|]);
          rewrite run_get by assumption; rewrite G; reflexivity.
      * pose proof (getenv_first n _ _ _ (skipn (S i) (strings m)) Hn Hu V) as G. rewrite <- Sp in G.
        do 2 eexists. split; [reflexivity|]. rewrite run_exist by assumption. rewrite G. destruct v; reflexivity.
      * pose proof (getenv_first n _ _ _ (skipn (S i) (strings m)) Hn Hu V) as G. rewrite <- Sp in G.
        destruct Hc as [H0 Hw].
        destruct o; do 2 eexists; (split; [reflexivity|]); rewrite run_set by assumption; unfold setenv;
          destruct n as [|x n]; try congruence; rewrite Hs, G; cbn [fst snd]; [|reflexivity].
        do 2 f_equal. unfold strings at 2. cbn [entries]. rewrite put_map. cbn [snd].
        change (map snd (entries m)) with (strings m).
        pose proof (replace_first _ w _ _ _ (skipn (S i) (strings m)) Hu V) as R. rewrite <- Sp in R.
        assert (L : length (firstn i (strings m)) = i) by (apply firstn_length_le; lia).
        pose proof (put_app (firstn i (strings m)) e (skipn (S i) (strings m)) ((x :: n) ++ equals_sign :: w)) as P.
        rewrite L, <- Sp in P. cbn [snd]. rewrite P. exact R.
    + right. split; [reflexivity|]. split; [lia|]. unfold unmatched in *.
      assert (F : firstn (S i) (strings m) = firstn i (strings m) ++ [e]).
      { clear - Es. revert i Es. induction (strings m) as [|x l IH]; intros [|i] H; simpl in *; try discriminate.
        - congruence. - f_equal. apply IH, H. }
      rewrite F. apply Forall_app. split; [assumption|]. constructor; [exact V|constructor].
  - left.
    assert (Hl : (length (strings m) <= i)%nat).
    { unfold strings. rewrite map_length. apply nth_error_None, E. }
    rewrite firstn_all2 in Hu by exact Hl. pose proof (getenv_none _ _ Hu) as G.
    destruct c as [n|n|n w o]; cbn [miss name_of no_nul] in *.
    + do 2 eexists. split; [reflexivity|]. rewrite run_get by assumption. rewrite G. reflexivity.
    + do 2 eexists. split; [reflexivity|]. rewrite run_exist by assumption. rewrite G. reflexivity.
    + destruct Hc as [H0 Hw]. do 2 eexists. split; [reflexivity|]. rewrite run_set by assumption. unfold setenv.
      destruct n as [|x n]; [congruence|]. rewrite Hs, G. cbn [fst snd]. do 2 f_equal.
      rewrite (replace_none _ w _ Hu). unfold strings at 2. cbn [entries]. rewrite map_app. reflexivity.
Qed.

Section Runs.
Context (env0 : environment) (programs : list (list action)).
Hypothesis Htame : Forall (Forall tame) programs.

Definition pc_call (k : control) : option env_call :=
  match k with Outside => None | Entered c => Some c | Scanning c _ => Some c | Leaving c _ _ => Some c end.

Definition phase (env : environment) (m : memory) (k : control) : Prop :=
  match k with
  | Outside => False
  | Entered c => strings m = env
  | Scanning c i => strings m = env /\ scannable c /\ (i <= length env)%nat /\ unmatched (name_of c) (firstn i env)
  | Leaving c r v => env_run env [c] = Ok (strings m, [r])
  end.

Record inv (p : process) (env : environment) : Prop := {
  inv_run : env_run env0 (calls (trace_of p)) = Ok (env, results (trace_of p));
  inv_len : length (threads p) = length programs;
  inv_prog : forall t th prog, nth_error (threads p) t = Some th -> nth_error programs t = Some prog ->
    prog = actions_of t (trace_of p) ++ todo th;
  inv_pc : forall t th, nth_error (threads p) t = Some th -> pc th <> Outside ->
    owner p = Some t /\ exists c rest, pc_call (pc th) = Some c /\ todo th = Do c :: rest;
  inv_own : match owner p with
    | None => strings (mem p) = env
    | Some t => exists th, nth_error (threads p) t = Some th /\ phase env (mem p) (pc th)
    end }.

Lemma inv_launch : inv (launch env0 programs) env0.
Proof.
  constructor; cbn [launch trace_of threads owner mem calls results].
  - reflexivity.
  - apply map_length.
  - intros t th prog H1 H2. rewrite nth_error_map, H2 in H1. inversion H1; subst. reflexivity.
  - intros t th H1 H2. rewrite nth_error_map in H1. destruct (nth_error programs t); inversion H1; subst. cbn in H2. congruence.
  - unfold strings. cbn [entries]. clear.
    assert (G : forall k, map snd (combine (seq k (length env0)) env0) = env0).
    { induction env0 as [|e l IH]; intros k; simpl; [reflexivity|]. rewrite IH. reflexivity. }
    apply G.
Qed.

(** Changing one thread. *)
Lemma put_inv {A} (l : list A) t th th0 u thu : nth_error l t = Some th0 -> nth_error (put l t th) u = Some thu ->
  (u = t /\ thu = th) \/ (u <> t /\ nth_error l u = Some thu).
Proof.
  intros H0 H. destruct (Nat.eq_dec t u) as [->|Hne].
  - rewrite (put_same _ _ _ _ H0) in H. left. split; congruence.
  - rewrite put_other in H by assumption. right. split; congruence.
Qed.

Lemma thread_prog p env t th : inv p env -> nth_error (threads p) t = Some th ->
  exists prog, nth_error programs t = Some prog /\ prog = actions_of t (trace_of p) ++ todo th /\ Forall tame (todo th).
Proof.
  intros I H. destruct (nth_error programs t) as [prog|] eqn:E.
  - exists prog. pose proof (inv_prog _ _ I _ _ _ H E) as P. split; [reflexivity|]. split; [exact P|].
    pose proof Htame as F. rewrite Forall_forall in F. specialize (F prog (nth_error_In _ _ E)).
    rewrite P in F. apply Forall_app in F. apply F.
  - exfalso. apply nth_error_None in E. assert (t < length (threads p))%nat by (apply nth_error_Some; congruence).
    rewrite (inv_len _ _ I) in *. lia.
Qed.

Lemma inv_step p env t q : inv p env -> step p t = Some q -> exists env', inv q env'.
Proof.
  intros I H. unfold step in H. destruct (nth_error (threads p) t) as [th|] eqn:E; [|discriminate].
  destruct (thread_prog _ _ _ _ I E) as [prog [Ep [Pr Tm]]].
  destruct (pc th) as [|c|c i|c r v] eqn:K.
  - destruct (todo th) as [|[c|] rest] eqn:D; [discriminate| |].
    + destruct (owner p) eqn:O; [discriminate|]. inversion H; subst q; clear H. exists env.
      pose proof (inv_own _ _ I) as W. rewrite O in W.
      constructor; cbn [trace_of threads owner mem]; unfold set_thread.
      * apply (inv_run _ _ I).
      * rewrite put_length. apply (inv_len _ _ I).
      * intros u thu pu Hu Pu. destruct (put_inv _ _ _ _ _ _ E Hu) as [[-> ->]|[_ Hu']]; [|eapply inv_prog; eauto].
        cbn [todo]. rewrite <- D. eapply inv_prog; eauto.
      * intros u thu Hu Ku. destruct (put_inv _ _ _ _ _ _ E Hu) as [[-> ->]|[Hne Hu']].
        -- split; [reflexivity|]. exists c, rest. cbn [pc todo pc_call]. auto.
        -- destruct (inv_pc _ _ I _ _ Hu' Ku). congruence.
      * eexists. split; [eapply put_same; eauto|]. cbn [pc phase]. exact W.
    + inversion H; subst q; clear H. exists env.
      constructor; cbn [trace_of threads owner mem]; unfold set_thread.
      * rewrite calls_app, results_app. cbn [calls results]. rewrite !app_nil_r. apply (inv_run _ _ I).
      * rewrite put_length. apply (inv_len _ _ I).
      * intros u thu pu Hu Pu. rewrite actions_app. cbn [actions_of].
        destruct (put_inv _ _ _ _ _ _ E Hu) as [[-> ->]|[Hne Hu']].
        -- rewrite Nat.eqb_refl, <- app_assoc. cbn [todo app]. rewrite <- D. eapply inv_prog; eauto.
        -- replace (Nat.eqb t u) with false by (symmetry; apply Nat.eqb_neq; congruence).
           rewrite app_nil_r. eapply inv_prog; eauto.
      * intros u thu Hu Ku. destruct (put_inv _ _ _ _ _ _ E Hu) as [[-> ->]|[Hne Hu']]; [cbn [pc] in Ku; congruence|].
        eapply inv_pc; eauto.
      * pose proof (inv_own _ _ I) as W. destruct (owner p) as [o|] eqn:O; [|exact W].
        destruct W as [tho [Ho Ph]]. exists tho. split; [|exact Ph]. rewrite put_other; [exact Ho|].
        intros <-. rewrite E in Ho. inversion Ho; subst tho. rewrite K in Ph. exact Ph.
  - assert (Kn : pc th <> Outside) by congruence.
    destruct (inv_pc _ _ I _ _ E Kn) as [O [c' [rest [Ec D]]]]. rewrite K in Ec. inversion Ec; subst c'.
    pose proof (inv_own _ _ I) as W. rewrite O in W. destruct W as [th' [E' Ph]]. rewrite E in E'. inversion E'; subst th'.
    rewrite K in Ph. cbn [phase] in Ph. rewrite D in Tm. inversion Tm as [|? ? Nc _]; subst. cbn [tame] in Nc.
    inversion H; subst q; clear H. exists (strings (mem p)).
    constructor; cbn [trace_of threads owner mem]; unfold set_thread.
    * apply (inv_run _ _ I).
    * rewrite put_length. apply (inv_len _ _ I).
    * intros u thu pu Hu Pu. destruct (put_inv _ _ _ _ _ _ E Hu) as [[-> ->]|[_ Hu']]; [|eapply inv_prog; eauto].
      cbn [todo]. eapply inv_prog; eauto.
    * intros u thu Hu Ku. destruct (put_inv _ _ _ _ _ _ E Hu) as [[-> ->]|[Hne Hu']]; [|eapply inv_pc; eauto].
      split; [exact O|]. exists c, rest. cbn [pc todo]. split; [|exact D].
      destruct (enter_ok (mem p) c Nc) as [[r [v [-> _]]]|[-> _]]; reflexivity.
    * rewrite O. eexists. split; [eapply put_same; eauto|]. cbn [pc].
      destruct (enter_ok (mem p) c Nc) as [[r [v [-> R]]]|[-> Sc]]; cbn [phase]; [exact R|].
      split; [reflexivity|]. split; [exact Sc|]. split; [lia|constructor].
  - assert (Kn : pc th <> Outside) by congruence.
    destruct (inv_pc _ _ I _ _ E Kn) as [O [c' [rest [Ec D]]]]. rewrite K in Ec. inversion Ec; subst c'.
    pose proof (inv_own _ _ I) as W. rewrite O in W. destruct W as [th' [E' Ph]]. rewrite E in E'. inversion E'; subst th'.
    rewrite K in Ph. cbn [phase] in Ph. destruct Ph as [Se [Sc [Li Un]]].
    rewrite D in Tm. inversion Tm as [|? ? Nc _]; subst. cbn [tame] in Nc.
    inversion H; subst q; clear H. exists (strings (mem p)).
    destruct (scan_ok (mem p) c i Nc Sc Li Un) as [[r [v [R1 R2]]]|[R [Li' Un']]].
    + constructor; cbn [trace_of threads owner mem]; unfold set_thread.
      * apply (inv_run _ _ I).
      * rewrite put_length. apply (inv_len _ _ I).
      * intros u thu pu Hu Pu. destruct (put_inv _ _ _ _ _ _ E Hu) as [[-> ->]|[_ Hu']]; [|eapply inv_prog; eauto].
        cbn [todo]. eapply inv_prog; eauto.
      * intros u thu Hu Ku. destruct (put_inv _ _ _ _ _ _ E Hu) as [[-> ->]|[Hne Hu']]; [|eapply inv_pc; eauto].
        split; [exact O|]. exists c, rest. cbn [pc todo]. split; [|exact D]. rewrite R1. reflexivity.
      * rewrite O. eexists. split; [eapply put_same; eauto|]. cbn [pc]. rewrite R1. cbn [phase]. exact R2.
    + rewrite R. cbn [fst snd]. constructor; cbn [trace_of threads owner mem]; unfold set_thread.
      * apply (inv_run _ _ I).
      * rewrite put_length. apply (inv_len _ _ I).
      * intros u thu pu Hu Pu. destruct (put_inv _ _ _ _ _ _ E Hu) as [[-> ->]|[_ Hu']]; [|eapply inv_prog; eauto].
        cbn [todo]. eapply inv_prog; eauto.
      * intros u thu Hu Ku. destruct (put_inv _ _ _ _ _ _ E Hu) as [[-> ->]|[Hne Hu']]; [|eapply inv_pc; eauto].
        split; [exact O|]. exists c, rest. cbn [pc todo]. split; [reflexivity|exact D].
      * rewrite O. eexists. split; [eapply put_same; eauto|]. cbn [pc phase]. auto.
  - assert (Kn : pc th <> Outside) by congruence.
    destruct (inv_pc _ _ I _ _ E Kn) as [O [c' [rest [Ec D]]]]. rewrite K in Ec. inversion Ec; subst c'.
    pose proof (inv_own _ _ I) as W. rewrite O in W. destruct W as [th' [E' Ph]]. rewrite E in E'. inversion E'; subst th'.
    rewrite K in Ph. cbn [phase] in Ph.
    inversion H; subst q; clear H. exists (strings (mem p)).
    constructor; cbn [trace_of threads owner mem]; unfold set_thread.
    * rewrite calls_app, results_app. cbn [calls results]. eapply env_run_app; [apply (inv_run _ _ I)|exact Ph].
    * rewrite put_length. apply (inv_len _ _ I).
    * intros u thu pu Hu Pu. rewrite actions_app. cbn [actions_of].
      destruct (put_inv _ _ _ _ _ _ E Hu) as [[-> ->]|[Hne Hu']].
      -- rewrite Nat.eqb_refl, <- app_assoc. cbn [todo app]. rewrite D. cbn [tl]. rewrite <- D. eapply inv_prog; eauto.
      -- replace (Nat.eqb t u) with false by (symmetry; apply Nat.eqb_neq; congruence).
         rewrite app_nil_r. eapply inv_prog; eauto.
    * intros u thu Hu Ku. destruct (put_inv _ _ _ _ _ _ E Hu) as [[-> ->]|[Hne Hu']]; [cbn [pc] in Ku; congruence|].
      destruct (inv_pc _ _ I _ _ Hu' Ku) as [O' _]. congruence.
    * reflexivity.
Qed.

Lemma inv_schedule s : forall p env, inv p env -> exists env', inv (schedule p s) env'.
Proof.
  induction s as [|t s IH]; intros p env I; [exists env; exact I|]. cbn [schedule].
  destruct (step p t) as [q|] eqn:E; [|eapply IH; eauto].
  destruct (inv_step _ _ _ _ I E) as [e' I']. eapply IH; eauto.
Qed.

(** Somebody can always move. *)
Lemma inv_progress p env : inv p env ->
  (exists t, step p t <> None) \/ (owner p = None /\ forall t th, nth_error (threads p) t = Some th -> todo th = []).
Proof.
  intros I. pose proof (inv_own _ _ I) as W. destruct (owner p) as [t|] eqn:O.
  - left. destruct W as [th [E Ph]]. exists t. unfold step. rewrite E.
    destruct (pc th); try discriminate. destruct Ph.
  - assert (A : (exists t th, nth_error (threads p) t = Some th /\ todo th <> []) \/
                forall t th, nth_error (threads p) t = Some th -> todo th = []).
    { clear. induction (threads p) as [|th l IH]; [right; intros [|] ? H; discriminate|].
      destruct (todo th) eqn:D; [|left; exists 0%nat, th; split; [reflexivity|congruence]].
      destruct IH as [[t [x [H1 H2]]]|H]; [left; exists (S t), x; auto|].
      right. intros [|t] x Hx; cbn in Hx; [inversion Hx; subst; exact D|eapply H; eauto]. }
    destruct A as [[t [th [E D]]]|A]; [left|right; auto]. exists t. unfold step. rewrite E.
    destruct (pc th) eqn:K; try discriminate. destruct (todo th) as [|[c|] rest]; [congruence| |discriminate].
    rewrite O. discriminate.
Qed.
End Runs.

(** Every call takes a bounded number of steps. *)
Lemma replace_entry_length env n w : (length (replace_entry env n w) <= S (length env))%nat.
Proof. induction env as [|e env IH]; cbn [replace_entry]; [cbn; lia|]. destruct (strip_prefix _ e); cbn [length]; lia. Qed.
Lemma setenv_length env n w o : (length (fst (setenv env n w o)) <= S (length env))%nat.
Proof.
  unfold setenv. destruct n as [|x n]; [cbn; lia|]. destruct (existsb _ _); [cbn; lia|].
  destruct (getenv env (x :: n)); [destruct o|]; cbn [fst]; try lia; apply replace_entry_length.
Qed.
Lemma env_run_length h : forall env env' rs, env_run env h = Ok (env', rs) -> (length env' <= length env + length h)%nat.
Proof.
  induction h as [|d h IH]; intros env env' rs H; [cbn in H; inversion H; subst; lia|].
  cbn [env_run] in H.
  match type of H with bind ?e _ = _ => destruct e as [p| |] eqn:E end; cbn [bind] in H; try discriminate.
  destruct (env_run (fst p) h) as [q| |] eqn:E2; cbn [bind] in H; try discriminate.
  inversion H; subst. destruct q as [q1 q2]. apply IH in E2. cbn [length fst].
  assert (length (fst p) <= S (length env))%nat; [|lia].
  destruct d as [n|n|n v o].
  - destruct (get_env env (lit n)); cbn in E; inversion E; subst; cbn; lia.
  - destruct (exist env (lit n)); cbn in E; inversion E; subst; cbn; lia.
  - unfold set_env in E. destruct (Nat.eqb (len (lit n)) 0); [cbn in E; inversion E; subst; cbn; lia|].
    destruct (c_string (lit n)) as [n'| |]; cbn [bind] in E; try discriminate.
    destruct (c_string (lit v)) as [v'| |]; cbn [bind] in E; try discriminate.
    inversion E; subst. cbn [fst]. apply setenv_length.
Qed.

Lemma sum_put {A} (f : A -> nat) (l : list A) : forall i x y, nth_error l i = Some y ->
  (list_sum (map f (put l i x)) + f y = list_sum (map f l) + f x)%nat.
Proof.
  induction l as [|z l IH]; intros [|i] x y H; cbn in H |- *; try discriminate.
  - inversion H; subst. lia.
  - specialize (IH i x y H). unfold list_sum in IH. lia.
Qed.

Section Cost.
Context (env0 : environment) (programs : list (list action)).
Hypothesis Htame : Forall (Forall tame) programs.
Let L := (length env0 + total programs)%nat.
Let K := (L + 4)%nat.

Definition cost (th : thread) : nat :=
  match pc th with
  | Outside => K * length (todo th)
  | Entered _ => K * length (tl (todo th)) + (K - 1)
  | Scanning _ i => K * length (tl (todo th)) + (K - 2 - i)
  | Leaving _ _ _ => K * length (tl (todo th)) + 1
  end.
Definition all_cost (p : process) : nat := list_sum (map cost (threads p)).
Definition accounted (p : process) : Prop :=
  (length (trace_of p) + list_sum (map (fun th => length (todo th)) (threads p)) = total programs)%nat.

Lemma calls_length l : (length (calls l) <= length l)%nat.
Proof. induction l as [|[] l IH]; cbn; lia. Qed.

Lemma cost_step p env t q : inv env0 programs p env -> accounted p -> step p t = Some q ->
  accounted q /\ (S (all_cost q) <= all_cost p)%nat.
Proof.
  intros I A H. unfold accounted, all_cost in *.
  assert (B : (length env <= L)%nat).
  { pose proof (env_run_length _ _ _ _ (inv_run _ _ _ _ I)). pose proof (calls_length (trace_of p)). unfold L. lia. }
  unfold step in H. destruct (nth_error (threads p) t) as [th|] eqn:E; [|discriminate].
  pose proof (sum_put cost (threads p) t) as SC. pose proof (sum_put (fun th => length (todo th)) (threads p) t) as ST.
  destruct (pc th) as [|c|c i|c r v] eqn:P.
  - destruct (todo th) as [|[c|] rest] eqn:D; [discriminate| |].
    + destruct (owner p); [discriminate|]. inversion H; subst q; clear H. cbn [threads trace_of]. unfold set_thread.
      specialize (SC (mkThread (Do c :: rest) (Entered c) (last_view th)) th E).
      specialize (ST (mkThread (Do c :: rest) (Entered c) (last_view th)) th E).
      unfold cost in SC at 2 4. rewrite P, D in SC. cbn [pc todo tl length] in *. rewrite D in ST. cbn [length] in ST.
      split; [lia|]. unfold K in *. nia.
    + inversion H; subst q; clear H. cbn [threads trace_of]. unfold set_thread.
      specialize (SC (mkThread rest Outside (last_view th)) th E).
      specialize (ST (mkThread rest Outside (last_view th)) th E).
      unfold cost in SC at 2 4. rewrite P, D in SC. cbn [pc todo tl length] in *. rewrite D in ST. cbn [length] in ST.
      rewrite app_length. cbn [length]. split; [lia|]. unfold K in *. nia.
  - inversion H; subst q; clear H. cbn [threads trace_of]. unfold set_thread.
    specialize (SC (mkThread (todo th) (enter c) (last_view th)) th E).
    specialize (ST (mkThread (todo th) (enter c) (last_view th)) th E). cbn [todo] in ST. split; [lia|].
    unfold cost in SC at 2 4. rewrite P in SC. cbn [pc todo] in SC.
    assert (Hk : (4 <= K)%nat) by (unfold K; lia).
    destruct c as [[|]|[|]|[|]]; cbn [enter] in *; try destruct (existsb _ _); cbn [pc] in SC; lia.
  - inversion H; subst q; clear H. cbn [threads trace_of]. unfold set_thread.
    specialize (SC (mkThread (todo th) (snd (scan (mem p) c i)) (last_view th)) th E).
    specialize (ST (mkThread (todo th) (snd (scan (mem p) c i)) (last_view th)) th E). cbn [todo] in ST. split; [lia|].
    unfold cost in SC at 2 4. rewrite P in SC. cbn [pc todo] in SC.
    assert (Kn : pc th <> Outside) by congruence.
    destruct (inv_pc _ _ _ _ I _ _ E Kn) as [O [c' [rest [Ec D]]]]. rewrite P in Ec. inversion Ec; subst c'.
    pose proof (inv_own _ _ _ _ I) as W. rewrite O in W. destruct W as [th' [E' Ph]]. rewrite E in E'. inversion E'; subst th'.
    rewrite P in Ph. cbn [phase] in Ph. destruct Ph as [Se [Sc [Li Un]]]. rewrite <- Se in Li, B, Un.
    destruct (thread_prog env0 programs Htame _ _ _ _ I E) as [prog [_ [_ Tm]]].
    rewrite D in Tm. inversion Tm as [|? ? Nc _]; subst. cbn [tame] in Nc.
    destruct (scan_ok (mem p) c i Nc Sc Li Un) as [[r [v [R1 _]]]|[R [Li' _]]].
    + rewrite R1 in *. cbn [pc] in SC. unfold K in *. lia.
    + rewrite R in *. cbn [snd pc] in *. unfold K in *. lia.
  - inversion H; subst q; clear H. cbn [threads trace_of]. unfold set_thread.
    assert (Kn : pc th <> Outside) by congruence.
    destruct (inv_pc _ _ _ _ I _ _ E Kn) as [O [c' [rest [Ec D]]]].
    match goal with |- context [put _ t ?x] => specialize (SC x th E); specialize (ST x th E) end.
    unfold cost in SC at 2 4. rewrite P in SC. cbn [pc todo] in SC, ST. rewrite D in SC, ST. cbn [tl length] in SC, ST.
    rewrite D. cbn [tl]. rewrite app_length. cbn [length]. split; lia.
Qed.

Lemma moves_cost s : forall p env, inv env0 programs p env -> accounted p -> (moves p s <= all_cost p)%nat.
Proof.
  induction s as [|t s IH]; intros p env I A; cbn [moves]; [lia|].
  destruct (step p t) as [q|] eqn:E; [|eapply IH; eauto].
  destruct (cost_step _ _ _ _ I A E) as [A' C]. destruct (inv_step _ _ Htame _ _ _ _ I E) as [e' I'].
  specialize (IH _ _ I' A'). lia.
Qed.

Lemma launch_accounted : accounted (launch env0 programs).
Proof. unfold accounted, total. cbn [launch trace_of threads length]. rewrite map_map. cbn [todo]. reflexivity. Qed.
Lemma launch_cost : all_cost (launch env0 programs) = (K * total programs)%nat.
Proof.
  unfold all_cost, total. cbn [launch threads]. rewrite map_map. unfold cost. cbn [pc todo].
  clearbody K. clear. unfold list_sum. induction programs as [|a l IH]; cbn [map fold_right]; [lia|]. rewrite IH. lia.
Qed.
End Cost.

(** The text behind a view. *)
Section Views.
Context (env0 : environment) (programs : list (list action)).
Hypothesis Htame : Forall (Forall tame) programs.
Definition untouched (n : list Z) : Prop := ~ In 61 n /\ Forall (Forall (fun a => ~ overwrites n a)) programs.

Fixpoint last_get (t : nat) (l : list event) : option (list Z * list Z) :=
  match l with
  | [] => None
  | e :: l' => match last_get t l' with
               | Some x => Some x
               | None => match e with
                         | Returned t' (CGet n) (RGet (inl v)) => if Nat.eqb t' t then Some (n, v) else None
                         | _ => None
                         end
               end
  end.
Definition holds (m : memory) (n v : list Z) (a : nat) : Prop := In (a, n ++ 61 :: v) (entries m).
Definition given (m : memory) (k : control) : Prop :=
  match k with
  | Leaving (CGet n) (RGet (inl v)) w => exists a, w = Some (a, S (length n)) /\ holds m n v a
  | Leaving _ _ w => w = None
  | _ => True
  end.
Record vinv (p : process) : Prop := {
  v_nodup : NoDup (map fst (entries (mem p)));
  v_fresh : Forall (fun e => fst e < fresh (mem p))%nat (entries (mem p));
  v_view : forall t th, nth_error (threads p) t = Some th ->
    match last_get t (trace_of p) with
    | None => last_view th = None
    | Some (n, v) => exists a, last_view th = Some (a, S (length n)) /\ (untouched n -> holds (mem p) n v a)
    end;
  v_given : forall t th, nth_error (threads p) t = Some th -> given (mem p) (pc th);
  v_reads : forall l1 t n v l2 r l3,
    trace_of p = l1 ++ Returned t (CGet n) (RGet (inl v)) :: l2 ++ WasRead t r :: l3 ->
    Forall (fun e => ~ gives_view t e) l2 -> untouched n -> r = Ok v }.

Lemma look_ok m n v a : NoDup (map fst (entries m)) -> holds m n v a -> look m (a, S (length n)) = Ok v.
Proof.
  intros Hd H. unfold look, holds in *. cbn [fst snd]. induction (entries m) as [|e l IH]; [destruct H|].
  cbn [find map] in *. inversion Hd as [|? ? Hn Hd']; subst. destruct H as [->|H].
  - cbn [fst]. rewrite Nat.eqb_refl. cbn [snd]. f_equal. clear. induction n as [|x n IH]; [reflexivity|exact IH].
  - destruct (Nat.eqb (fst e) a) eqn:E; [|auto]. exfalso. apply Nat.eqb_eq in E. apply Hn. rewrite E.
    apply in_map_iff. exists (a, n ++ 61 :: v). auto.
Qed.

Lemma last_get_app t a b : last_get t (a ++ b) = match last_get t b with Some x => Some x | None => last_get t a end.
Proof.
  induction a as [|e a IH]; cbn [app last_get]; [destruct (last_get t b); reflexivity|]. rewrite IH.
  destruct (last_get t b); reflexivity.
Qed.
Lemma last_get_none t l : Forall (fun e => ~ gives_view t e) l -> last_get t l = None.
Proof.
  induction 1 as [|e l He _ IH]; [reflexivity|]. cbn [last_get]. rewrite IH.
  destruct e as [t' [n|n|n w o] [[v|x]|b|x]|]; try reflexivity. cbn [gives_view] in He.
  destruct (Nat.eqb t' t) eqn:E; [apply Nat.eqb_eq in E; congruence|reflexivity].
Qed.

Lemma in_put {A} (l : list A) : forall i x y z, nth_error l i = Some y -> In z l -> z = y \/ In z (put l i x).
Proof.
  induction l as [|w l IH]; intros [|i] x y z H Hz; cbn in *; try discriminate.
  - inversion H; subst. destruct Hz as [->|Hz]; auto.
  - destruct Hz as [->|Hz]; auto. destruct (IH i x y z H Hz); auto.
Qed.
Lemma put_in {A} (l : list A) : forall i x z, In z (put l i x) -> z = x \/ In z l.
Proof.
  induction l as [|w l IH]; intros [|i] x z H; cbn in *; auto.
  - destruct H as [->|H]; auto.
  - destruct H as [->|H]; auto. destruct (IH _ _ _ H); auto.
Qed.
Lemma put_nodup {A} (l : list A) : forall i x, NoDup l -> ~ In x l -> NoDup (put l i x).
Proof.
  induction l as [|w l IH]; intros [|i] x Hd Hx; cbn in *; auto; inversion Hd as [|? ? Hw Hd']; subst; constructor; auto.
  intros H. apply put_in in H as [->|H]; auto.
Qed.

(** What a turn of the loop does to the memory. *)
Lemma scan_memory m c i : NoDup (map fst (entries m)) -> Forall (fun e => fst e < fresh m)%nat (entries m) -> scannable c ->
  let m' := fst (scan m c i) in
  NoDup (map fst (entries m')) /\ Forall (fun e => fst e < fresh m')%nat (entries m') /\
  given m' (snd (scan m c i)) /\
  forall n v a, ~ In 61 n -> ~ overwrites n (Do c) -> holds m n v a -> holds m' n v a.
Proof.
  intros Hd Hf [Hn Hs]. cbv zeta. unfold scan.
  assert (Nf : ~ In (fresh m) (map fst (entries m))).
  { intros H. apply in_map_iff in H as [e [He Hi]]. rewrite Forall_forall in Hf. specialize (Hf _ Hi). lia. }
  destruct (nth_error (entries m) i) as [[b e]|] eqn:E; cbn [fst snd].
  - destruct (strip_prefix (name_of c ++ [equals_sign]) e) as [w|] eqn:V.
    + destruct c as [n|n|n x o]; cbn [hit name_of] in *.
      * destruct w as [|z w]; cbn [is_null fst snd given]; repeat (split; [solve [auto]|]).
        -- auto.
        -- split; [|auto]. exists b. split; [reflexivity|]. unfold holds. apply strip_eq in V. subst e.
           eapply nth_error_In; eauto.
      * cbn [fst snd given]. auto.
      * destruct o; cbn [fst snd given entries fresh]; [|auto]. split; [|split; [|split]].
        -- rewrite put_map. cbn [fst]. apply put_nodup; auto.
        -- rewrite Forall_forall in *. intros z Hz. apply put_in in Hz as [->|Hz]; cbn [fst]; [lia|]. specialize (Hf _ Hz). lia.
        -- reflexivity.
        -- intros n' v a Hn' Ho H. unfold holds in *. cbn [entries].
           destruct (in_put _ i (fresh m, n ++ equals_sign :: x) _ _ E H) as [Q|Q]; [exfalso|exact Q].
           inversion Q; subst. apply strip_eq in V. apply Ho. cbn [overwrites].
           destruct (name_inj n n' w v) as [Q1 _]; auto.
           intros Hi. assert (T : existsb (Z.eqb equals_sign) n = true); [|congruence].
           apply existsb_exists. exists 61. split; [exact Hi|reflexivity].
    + cbn [fst snd given]. auto.
  - destruct c as [n|n|n x o]; cbn [miss fst snd given]; auto. split; [|split; [|split]].
    + cbn [entries]. rewrite map_app. cbn [map fst].
      apply NoDup_rev in Hd. rewrite <- (rev_involutive (map fst (entries m) ++ [fresh m])). apply NoDup_rev.
      rewrite rev_app_distr. cbn [rev app]. constructor; [|exact Hd]. intros H. apply in_rev in H. auto.
    + cbn [entries fresh]. apply Forall_app. split; [|constructor; [cbn [fst]; lia|constructor]].
      rewrite Forall_forall in *. intros z Hz. specialize (Hf _ Hz). lia.
    + reflexivity.
    + intros n' v a _ _ H. unfold holds in *. cbn [entries]. apply in_or_app. auto.
Qed.

Lemma vinv_launch : vinv (launch env0 programs).
Proof.
  constructor; cbn [launch mem threads trace_of entries fresh].
  - assert (G : forall k, map fst (combine (seq k (length env0)) env0) = seq k (length env0)).
    { induction env0 as [|e l IH]; intros k; simpl; [reflexivity|]. rewrite IH. reflexivity. }
    rewrite G. apply seq_NoDup.
  - apply Forall_forall. intros [a e] H. apply in_combine_l in H. apply in_seq in H. cbn [fst]. lia.
  - intros t th H. rewrite nth_error_map in H. destruct (nth_error programs t); inversion H; subst. reflexivity.
  - intros t th H. rewrite nth_error_map in H. destruct (nth_error programs t); inversion H; subst. exact I.
  - intros l1 t n v l2 r l3 H. destruct l1; discriminate.
Qed.

Lemma split_last {A} (tr : list A) e l1 x l2 y l3 : tr ++ [e] = l1 ++ x :: l2 ++ y :: l3 ->
  (l3 = [] /\ y = e /\ tr = l1 ++ x :: l2) \/ (exists l3', l3 = l3' ++ [e] /\ tr = l1 ++ x :: l2 ++ y :: l3').
Proof.
  intros H. destruct l3 as [|z l3] using rev_ind.
  - left. assert (H' : tr ++ [e] = (l1 ++ x :: l2) ++ [y]) by (rewrite <- app_assoc; exact H).
    apply app_inj_tail in H' as [-> ->]. auto.
  - right. exists l3.
    assert (H' : tr ++ [e] = (l1 ++ x :: l2 ++ y :: l3) ++ [z]).
    { rewrite H. rewrite <- app_assoc. f_equal. cbn [app]. f_equal. rewrite <- app_assoc. reflexivity. }
    apply app_inj_tail in H' as [-> ->]. auto.
Qed.

Lemma vinv_step p env t q : inv env0 programs p env -> vinv p -> step p t = Some q -> vinv q.
Proof.
  intros I V H. unfold step in H. destruct (nth_error (threads p) t) as [th|] eqn:E; [|discriminate].
  destruct (thread_prog env0 programs Htame _ _ _ _ I E) as [prog [Ep [Pr Tm]]].
  destruct V as [V1 V2 V3 V4 V5].
  pose proof (V3 _ _ E) as V3t. pose proof (V4 _ _ E) as V4t.
  destruct (pc th) as [|c|c i|c r v] eqn:P.
  - destruct (todo th) as [|[c|] rest] eqn:D; [discriminate| |].
    + destruct (owner p); [discriminate|]. inversion H; subst q; clear H.
      constructor; cbn [mem threads trace_of]; auto; unfold set_thread.
      * intros u thu Hu. destruct (put_inv _ _ _ _ _ _ E Hu) as [[-> ->]|[_ Hu']]; [|apply V3, Hu']. exact V3t.
      * intros u thu Hu. destruct (put_inv _ _ _ _ _ _ E Hu) as [[-> ->]|[_ Hu']]; [exact Logic.I|eapply V4; eauto].
    + inversion H; subst q; clear H. constructor; cbn [mem threads trace_of]; auto; unfold set_thread.
      * intros u thu Hu. rewrite last_get_app. cbn [last_get].
        destruct (put_inv _ _ _ _ _ _ E Hu) as [[-> ->]|[_ Hu']]; [|apply V3, Hu']. exact V3t.
      * intros u thu Hu. destruct (put_inv _ _ _ _ _ _ E Hu) as [[-> ->]|[_ Hu']]; [exact Logic.I|eapply V4; eauto].
      * intros l1 u n v l2 r l3 Q Hl Hu. apply split_last in Q as [[-> [Q1 Q2]]|[l3' [-> Q2]]]; [|eapply V5; eauto].
        inversion Q1; subst u r. rewrite Q2, last_get_app in V3t. cbn [last_get] in V3t.
        rewrite (last_get_none _ _ Hl), Nat.eqb_refl in V3t. destruct V3t as [a [-> Ha]].
        apply look_ok; auto.
  - inversion H; subst q; clear H. constructor; cbn [mem threads trace_of]; auto; unfold set_thread.
    * intros u thu Hu. destruct (put_inv _ _ _ _ _ _ E Hu) as [[-> ->]|[_ Hu']]; [|apply V3, Hu']. exact V3t.
    * intros u thu Hu. destruct (put_inv _ _ _ _ _ _ E Hu) as [[-> ->]|[_ Hu']]; [|eapply V4; eauto]. cbn [pc].
      destruct c as [[|]|[|]|[|]]; cbn [enter]; try destruct (existsb _ _); cbn [given]; auto.
  - assert (Kn : pc th <> Outside) by congruence.
    destruct (inv_pc _ _ _ _ I _ _ E Kn) as [O [c' [rest [Ec D]]]]. rewrite P in Ec. inversion Ec; subst c'.
    pose proof (inv_own _ _ _ _ I) as W. rewrite O in W. destruct W as [th' [E' Ph]]. rewrite E in E'. inversion E'; subst th'.
    rewrite P in Ph. cbn [phase] in Ph. destruct Ph as [_ [Sc _]].
    destruct (scan_memory (mem p) c i V1 V2 Sc) as [M1 [M2 [M3 M4]]].
    assert (M4' : forall n v a, untouched n -> holds (mem p) n v a -> holds (fst (scan (mem p) c i)) n v a).
    { intros n v a [N1 N2] Hh. apply M4; auto. rewrite Forall_forall in N2. specialize (N2 prog (nth_error_In _ _ Ep)).
      rewrite Forall_forall in N2. apply N2. rewrite Pr, D. apply in_or_app. right. left. reflexivity. }
    inversion H; subst q; clear H. constructor; cbn [mem threads trace_of]; auto; unfold set_thread.
    * assert (G : forall u thu, nth_error (threads p) u = Some thu ->
        match last_get u (trace_of p) with
        | None => last_view thu = None
        | Some (n, v) => exists a, last_view thu = Some (a, S (length n)) /\ (untouched n -> holds (fst (scan (mem p) c i)) n v a)
        end).
      { intros u thu Hu. specialize (V3 _ _ Hu). destruct (last_get u (trace_of p)) as [[n v]|]; [|exact V3].
        destruct V3 as [a [A1 A2]]. exists a. split; [exact A1|]. intros Hn. apply M4'; auto. }
      intros u thu Hu. destruct (put_inv _ _ _ _ _ _ E Hu) as [[-> ->]|[_ Hu']]; [|apply G, Hu']. apply (G _ _ E).
    * intros u thu Hu. destruct (put_inv _ _ _ _ _ _ E Hu) as [[-> ->]|[Hne Hu']]; [exact M3|].
      destruct (pc thu) eqn:Ku; [exact Logic.I|exfalso|exfalso|exfalso];
        (assert (Kn' : pc thu <> Outside) by congruence; destruct (inv_pc _ _ _ _ I _ _ Hu' Kn') as [O' _]; congruence).
  - inversion H; subst q; clear H. constructor; cbn [mem threads trace_of]; auto; unfold set_thread.
    * intros u thu Hu. rewrite last_get_app. cbn [last_get].
      destruct (put_inv _ _ _ _ _ _ E Hu) as [[-> ->]|[Hne Hu']].
      -- cbn [last_view]. destruct c as [n|n|n x o]; [destruct r as [[w|w]|b|w]|..]; cbn [given] in V4t; try (rewrite V4t; exact V3t).
         rewrite Nat.eqb_refl. destruct V4t as [a [-> Ha]]. exists a. auto.
      -- replace (Nat.eqb t u) with false by (symmetry; apply Nat.eqb_neq; congruence).
         specialize (V3 _ _ Hu'). destruct c as [n|n|n x o]; [destruct r as [[w|w]|b|w]|..]; exact V3.
    * intros u thu Hu. destruct (put_inv _ _ _ _ _ _ E Hu) as [[-> ->]|[_ Hu']]; [exact Logic.I|eapply V4; eauto].
    * intros l1 u n w l2 r' l3 Q Hl Hu. apply split_last in Q as [[-> [Q1 Q2]]|[l3' [-> Q2]]]; [discriminate|eapply V5; eauto].
Qed.

Lemma vinv_schedule s : forall p env, inv env0 programs p env -> vinv p -> vinv (schedule p s).
Proof.
  induction s as [|t s IH]; intros p env I V; [exact V|]. cbn [schedule].
  destruct (step p t) as [q|] eqn:E; [|exact (IH p env I V)].
  destruct (inv_step _ _ Htame _ _ _ _ I E) as [e' I']. exact (IH q e' I' (vinv_step _ _ _ _ I V E)).
Qed.
End Views.

(** Only threads of the process leave events. *)
Lemma trace_threads env programs s t a : Forall (Forall tame) programs ->
  In a (actions_of t (trace_of (schedule (launch env programs) s))) -> exists prog, nth_error programs t = Some prog.
Proof.
  intros _. assert (G : forall s p, length (threads p) = length programs ->
    (In a (actions_of t (trace_of p)) -> exists prog, nth_error programs t = Some prog) ->
    In a (actions_of t (trace_of (schedule p s))) -> exists prog, nth_error programs t = Some prog).
  { clear s. induction s as [|u s IH]; intros p Hl Hp H; [auto|]. cbn [schedule] in H.
    destruct (step p u) as [q|] eqn:E; [|eapply IH; eauto]. eapply (IH q); [| |exact H].
    - unfold step in E. destruct (nth_error (threads p) u) as [th|]; [|discriminate].
      destruct (pc th); [destruct (todo th) as [|[|]]; [discriminate|destruct (owner p); [discriminate|]|]| | |];
        inversion E; subst q; cbn [threads]; unfold set_thread; rewrite put_length; exact Hl.
    - intros Hq. destruct (nth_error programs t) as [prog|] eqn:Ep; [eauto|].
      assert (Hu : u <> t).
      { intros ->. unfold step in E. apply nth_error_None in Ep. rewrite <- Hl in Ep. apply nth_error_None in Ep.
        rewrite Ep in E. discriminate. }
      apply Hp. unfold step in E. destruct (nth_error (threads p) u) as [th|]; [|discriminate].
      assert (Nu : Nat.eqb u t = false) by (apply Nat.eqb_neq; exact Hu).
      destruct (pc th); [destruct (todo th) as [|[|]]; [discriminate|destruct (owner p); [discriminate|]|]| | |];
        inversion E; subst q; cbn [trace_of] in Hq; try exact Hq;
        rewrite actions_app in Hq; cbn [actions_of] in Hq; rewrite Nu, app_nil_r in Hq; exact Hq. }
  apply G; [apply map_length|]. intros [].
Qed.
