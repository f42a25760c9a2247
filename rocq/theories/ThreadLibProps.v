(** C127, C128: logging and transforms from several threads, under every schedule. *)
From Coq Require Import Lia.
From Verif Require Import Base CoreModel CoreSpec CoreProofs SpectralModel ThreadModel ThreadSpec ThreadProofs ThreadLibModel ThreadLibSpec.
Local Open Scope Z_scope.

Lemma obtained_app {A} t (a b : list (nat * A)) : obtained t (a ++ b) = obtained t a ++ obtained t b.
Proof. unfold obtained. rewrite filter_app, map_app. reflexivity. Qed.
Lemma obtained_one {A} t u (x : A) : obtained t [(u, x)] = if Nat.eqb u t then [x] else [].
Proof. unfold obtained. cbn. destruct (Nat.eqb u t); reflexivity. Qed.
Lemma written_obtained t o : written t o = obtained t o.
Proof. reflexivity. Qed.

(** ** C127 *)
Definition text (m : list item) : list Z := match insert_all m with Ok s => s ++ reset_code | _ => [] end.
Fixpoint spoken (ops : list log_op) : list Z :=
  match ops with [] => [] | SetName _ :: t => spoken t | Say m :: t => text m ++ spoken t end.
Lemma speaks_spoken ops s : speaks ops s -> s = spoken ops.
Proof.
  induction 1 as [|n ops s _ IH|m a ops s Hm _ IH]; cbn [spoken]; auto. unfold text. apply insert_all_Ok in Hm. rewrite Hm, <- IH.
  rewrite <- app_assoc. reflexivity.
Qed.
Definition pending (k : log_pc) : list Z := match k with LIdle => [] | Assigning => [] | Copying m => text m | Writing s => s end.

Definition log_inv (programs : list (list log_op)) (p : log_process) : Prop :=
  length (lthreads p) = length programs /\
  forall t th prog, nth_error (lthreads p) t = Some th -> nth_error programs t = Some prog ->
    spoken prog = written t (cout p) ++ pending (lpc th) ++ spoken (ltodo th).

Lemma log_inv_step programs p t q : log_inv programs p -> log_step p t = Some q -> log_inv programs q.
Proof.
  intros [Hl Hp] H. unfold log_step in H. destruct (log_race p); [discriminate|].
  destruct (nth_error (lthreads p) t) as [th|] eqn:E; [|discriminate].
  assert (G : forall th' out race,
    (forall prog, nth_error programs t = Some prog ->
       spoken prog = written t (cout p ++ out) ++ pending (lpc th') ++ spoken (ltodo th')) ->
    Forall (fun x => fst x = t) out ->
    log_inv programs (mkLP (put (lthreads p) t th') (cout p ++ out) race)).
  { intros th' out race G Fo. split; [cbn [lthreads]; rewrite put_length; exact Hl|]. cbn [lthreads cout].
    intros u thu prog Hu Pu. destruct (put_inv _ _ _ _ _ _ E Hu) as [[-> ->]|[Hne Hu']]; [auto|].
    rewrite written_obtained, obtained_app.
    replace (obtained u out) with (@nil Z); [rewrite app_nil_r; apply (Hp u); auto|].
    symmetry. clear - Fo Hne. induction Fo as [|[v c] out Hv _ IH]; [reflexivity|]. unfold obtained in *. cbn in *. subst v.
    replace (Nat.eqb t u) with false by (symmetry; apply Nat.eqb_neq; congruence). exact IH. }
  assert (Z0 : forall th' race,
    (forall prog, nth_error programs t = Some prog ->
       spoken prog = written t (cout p) ++ pending (lpc th') ++ spoken (ltodo th')) ->
    log_inv programs (mkLP (put (lthreads p) t th') (cout p) race)).
  { intros th' race G'. rewrite <- (app_nil_r (cout p)). apply G; [|constructor]. rewrite app_nil_r. exact G'. }
  destruct (lpc th) as [| |m|[|c s]] eqn:P.
  - destruct (ltodo th) as [|[n|m] rest] eqn:D; [discriminate| |]; inversion H; subst q; apply Z0; intros prog Pr;
      rewrite (Hp _ _ _ E Pr), P, D; cbn [lpc ltodo pending spoken app]; reflexivity.
  - inversion H; subst q. apply Z0. intros prog Pr. rewrite (Hp _ _ _ E Pr), P. reflexivity.
  - destruct (insert_all m) as [s| |] eqn:I; inversion H; subst q.
    + apply Z0. intros prog Pr. rewrite (Hp _ _ _ E Pr), P. cbn [pending lpc ltodo]. unfold text. rewrite I. reflexivity.
    + split; [exact Hl|]. exact Hp.
    + split; [exact Hl|]. exact Hp.
  - inversion H; subst q. apply Z0. intros prog Pr. rewrite (Hp _ _ _ E Pr), P. reflexivity.
  - inversion H; subst q. apply G; [|constructor; [reflexivity|constructor]].
    intros prog Pr. rewrite (Hp _ _ _ E Pr), P. cbn [pending lpc ltodo].
    change (written t (cout p ++ [(t, c)])) with (obtained t (cout p ++ [(t, c)])). rewrite obtained_app, obtained_one, Nat.eqb_refl, <- app_assoc. reflexivity.
Qed.
Lemma log_inv_schedule programs s : forall p, log_inv programs p -> log_inv programs (log_schedule p s).
Proof.
  induction s as [|t s IH]; intros p I; [exact I|]. cbn [log_schedule]. apply IH.
  destruct (log_step p t) eqn:E; [eapply log_inv_step; eauto|exact I].
Qed.
Lemma log_inv_launch programs : log_inv programs (log_launch programs).
Proof.
  split; cbn [log_launch lthreads cout]; [apply map_length|]. intros t th prog H1 H2. rewrite nth_error_map, H2 in H1.
  inversion H1; subst. reflexivity.
Qed.

(** Nothing a thread says is lost, repeated or reordered: what it has written is a prefix of its
    messages, and all of them once no thread can move. *)
Theorem C127_complete : forall programs s t prog said, nth_error programs t = Some prog -> speaks prog said ->
  let p := log_schedule (log_launch programs) s in
  log_race p = false ->
  (exists rest, said = written t (cout p) ++ rest) /\
  ((forall u, log_step p u = None) -> written t (cout p) = said).
Proof.
  intros programs s t prog said Hp Hs p Hr. apply speaks_spoken in Hs. subst said.
  destruct (log_inv_schedule programs s _ (log_inv_launch programs)) as [Hl Hi]. fold p in Hl, Hi.
  destruct (nth_error (lthreads p) t) as [th|] eqn:E.
  - specialize (Hi _ _ _ E Hp). split; [eexists; exact Hi|]. intros Hn. specialize (Hn t). unfold log_step in Hn.
    rewrite Hr, E in Hn. destruct (lpc th) as [| |m|[|c x]] eqn:P; try discriminate.
    + destruct (ltodo th) as [|[|]] eqn:D; try discriminate. rewrite Hi. cbn. rewrite app_nil_r. reflexivity.
    + destruct (insert_all m); discriminate.
  - exfalso. apply nth_error_None in E. rewrite Hl in E. assert (t < length programs)%nat; [|lia].
    apply nth_error_Some. congruence.
Qed.

(** If the settings are left alone while threads log, there is no race. *)
Theorem C127_settings_first : forall programs s,
  Forall (Forall (fun o => ~ names o)) programs -> Forall (fun prog => exists said, speaks prog said) programs ->
  log_race (log_schedule (log_launch programs) s) = false.
Proof.
  intros programs s Hn Hs.
  set (ok := fun th => (exists said, speaks (ltodo th) said) /\ Forall (fun o => ~ names o) (ltodo th) /\
    match lpc th with Assigning => False | Copying m => exists a, message_text m a | _ => True end).
  assert (G : forall s p, log_race p = false -> Forall ok (lthreads p) -> log_race (log_schedule p s) = false).
  { clear. induction s as [|t s IH]; intros p Hr Ho; [exact Hr|]. cbn [log_schedule].
    assert (Fp : forall th', ok th' -> Forall ok (put (lthreads p) t th')).
    { intros th' Hok. apply Forall_forall. intros x Hx. apply put_in in Hx as [->|Hx]; [exact Hok|].
      rewrite Forall_forall in Ho. auto. }
    assert (Na : existsb assigning (lthreads p) = false).
    { apply Bool.not_true_is_false. intros H. apply existsb_exists in H as [x [Hx Ha]]. rewrite Forall_forall in Ho.
      destruct (Ho _ Hx) as [_ [_ Hpc]]. unfold assigning in Ha. destruct (lpc x); try discriminate. exact Hpc. }
    unfold log_step. rewrite Hr. destruct (nth_error (lthreads p) t) as [th|] eqn:E; [|apply IH; auto].
    assert (Ht : ok th) by (rewrite Forall_forall in Ho; apply Ho; eapply nth_error_In; eauto).
    destruct Ht as [[said H1] [H2 H3]].
    destruct (lpc th) as [| |m|[|c x]].
    - destruct (ltodo th) as [|[n|m] rest]; [apply IH; auto| |].
      + inversion H2 as [|? ? Hx _]; subst. exfalso. apply Hx. exact I.
      + apply IH; cbn [log_race lthreads]; [exact Na|]. apply Fp. inversion H1; subst. inversion H2; subst.
        split; [eauto|]. split; [assumption|]. cbn [lpc]. eauto.
    - destruct H3.
    - destruct H3 as [a Ha]. apply insert_all_Ok in Ha. rewrite Ha. apply IH; [reflexivity|]. apply Fp.
      split; [eauto|]. split; [assumption|exact I].
    - apply IH; [reflexivity|]. apply Fp. split; [eauto|]. split; [assumption|exact I].
    - apply IH; [reflexivity|]. apply Fp. split; [eauto|]. split; [assumption|exact I]. }
  apply G; [reflexivity|]. cbn [log_launch lthreads]. apply Forall_forall. intros x Hx. apply in_map_iff in Hx as [prog [<- Hi]].
  rewrite Forall_forall in Hn, Hs. split; [apply Hs, Hi|]. split; [apply Hn, Hi|exact I].
Qed.

(** A message without a text (a view whose characters are not terminated, for instance) is undefined behaviour for the
    whole process, whatever the other threads do. *)
Theorem C127_undefined_message : forall programs t m P, nth_error programs t = Some (Say m :: P) -> (forall a, ~ message_text m a) ->
  log_race (log_schedule (log_launch programs) [t; t]) = true.
Proof.
  intros programs t m P Hp Hm. assert (Hl : nth_error (lthreads (log_launch programs)) t = Some (mkLT (Say m :: P) LIdle)).
  { cbn [log_launch lthreads]. rewrite nth_error_map, Hp. reflexivity. }
  assert (Na : existsb assigning (lthreads (log_launch programs)) = false) by (clear; unfold log_launch; cbn [lthreads]; induction programs; auto).
  assert (S1 : log_step (log_launch programs) t = Some (mkLP (put (lthreads (log_launch programs)) t (mkLT P (Copying m))) [] false)).
  { unfold log_step. change (log_race (log_launch programs)) with false. cbv iota. rewrite Hl. cbn [lpc ltodo]. rewrite Na. reflexivity. }
  cbn [log_schedule]. rewrite S1. unfold log_step. cbn [log_race lthreads]. rewrite (put_same _ _ _ _ Hl). cbn [lpc ltodo].
  destruct (insert_all m) as [a| |] eqn:E; [|reflexivity|reflexivity]. exfalso. apply (Hm a). apply insert_all_Ok, E.
Qed.

Example C127_undefined_message_ex : forall a, ~ message_text [Int 7; View (mkView (Some [104; 105]) 2)] a.
Proof. intros a H. apply insert_all_Ok in H. discriminate H. Qed.

(** But messages are not kept together: any two messages of two threads can come out with one inside
    the other. *)
Lemma log_write p t rest : forall s out, log_race p = false ->
  nth_error (lthreads p) t = Some (mkLT rest (Writing s)) -> cout p = out ->
  exists p', log_schedule p (repeat t (length s)) = p' /\ log_race p' = false /\
    lthreads p' = put (lthreads p) t (mkLT rest (Writing [])) /\ cout p' = out ++ map (fun c => (t, c)) s.
Proof.
  intros s. revert p. induction s as [|c s IH]; intros p out Hr E Ho.
  - exists p. cbn. split; [reflexivity|]. split; [exact Hr|]. split; [|rewrite app_nil_r; exact Ho].
    clear - E. revert t E. induction (lthreads p) as [|x l IHl]; intros [|t] E; cbn in *; try discriminate; [congruence|].
    f_equal. apply IHl, E.
  - cbn [length repeat log_schedule]. unfold log_step. rewrite Hr, E. cbn [lpc ltodo].
    destruct (IH (mkLP (put (lthreads p) t (mkLT rest (Writing s))) (cout p ++ [(t, c)]) false) (out ++ [(t, c)])) as [p' [H1 [H2 [H3 H4]]]].
    + reflexivity.
    + cbn [lthreads]. eapply put_same; eauto.
    + cbn [cout]. rewrite Ho. reflexivity.
    + exists p'. split; [exact H1|]. split; [exact H2|]. split.
      * rewrite H3. cbn [lthreads]. clear. revert t. induction (lthreads p) as [|x l IHl]; intros [|t]; cbn; congruence.
      * rewrite H4, <- app_assoc. reflexivity.
Qed.
Lemma log_schedule_app a : forall p b, log_schedule p (a ++ b) = log_schedule (log_schedule p a) b.
Proof. induction a as [|t a IH]; intros; cbn [app log_schedule]; auto. Qed.

Theorem C127_mixed_refuted : forall m n a b, message_text m a -> message_text n b ->
  exists s c rest, a ++ [27; 91; 48; 48; 109] = c :: rest /\
    map snd (cout (log_schedule (log_launch [[Say m]; [Say n]]) s)) = c :: (b ++ [27; 91; 48; 48; 109]) ++ rest.
Proof.
  intros m n a b Ha Hb. apply insert_all_Ok in Ha, Hb.
  destruct (a ++ reset_code) as [|c rest] eqn:A; [destruct a; discriminate|].
  set (bb := b ++ reset_code).
  exists ([0; 0; 0; 1; 1]%nat ++ repeat 1%nat (length bb) ++ repeat 0%nat (length rest)), c, rest.
  split; [exact A|]. rewrite log_schedule_app.
  assert (S1 : log_schedule (log_launch [[Say m]; [Say n]]) [0; 0; 0; 1; 1]%nat =
    mkLP [mkLT [] (Writing rest); mkLT [] (Writing bb)] [(0%nat, c)] false).
  { cbn. rewrite Ha. cbn. rewrite A. cbn. rewrite Hb. reflexivity. }
  rewrite S1, log_schedule_app.
  destruct (log_write (mkLP [mkLT [] (Writing rest); mkLT [] (Writing bb)] [(0%nat, c)] false) 1 [] bb [(0%nat, c)]) as [p1 [-> [R1 [T1 O1]]]];
    [reflexivity|reflexivity|reflexivity|]. cbn in T1.
  destruct (log_write p1 0 [] rest (cout p1)) as [p2 [-> [R2 [T2 O2]]]]; [exact R1|rewrite T1; reflexivity|reflexivity|].
  rewrite O2, O1. rewrite !map_app, !map_map. cbn [map snd app]. rewrite !map_id. reflexivity.
Qed.

(** And setting the name of the default logger while another thread sets it or logs is a race,
    whichever of the two comes first and whatever other threads do. *)
Lemma log_two programs t u P Q a b : t <> u ->
  nth_error programs t = Some (a :: P) -> nth_error programs u = Some (b :: Q) -> names a \/ names b ->
  log_race (log_schedule (log_launch programs) [t; u]) = true.
Proof.
  intros Hne Ht Hu Hn. cbn [log_schedule].
  assert (Et : nth_error (lthreads (log_launch programs)) t = Some (mkLT (a :: P) LIdle))
    by (cbn [log_launch lthreads]; rewrite nth_error_map, Ht; reflexivity).
  assert (Eu : nth_error (lthreads (log_launch programs)) u = Some (mkLT (b :: Q) LIdle))
    by (cbn [log_launch lthreads]; rewrite nth_error_map, Hu; reflexivity).
  assert (N : forall f, (forall a, f (mkLT a LIdle) = false) -> existsb f (lthreads (log_launch programs)) = false).
  { intros f Hf. apply Bool.not_true_is_false. intros Hx. apply existsb_exists in Hx as [x [Hi Hx]]. cbn [log_launch lthreads] in Hi.
    apply in_map_iff in Hi as [p' [<- _]]. rewrite Hf in Hx. discriminate. }
  unfold log_step at 2. rewrite Et. cbn [log_launch log_race lpc ltodo].
  change (map _ programs) with (lthreads (log_launch programs)).
  assert (S2 : forall th, nth_error (put (lthreads (log_launch programs)) t th) u = Some (mkLT (b :: Q) LIdle))
    by (intros th; rewrite put_other by exact Hne; exact Eu).
  assert (I : forall th, In th (put (lthreads (log_launch programs)) t th)) by (intros th; eapply nth_error_In; eapply put_same; eauto).
  destruct a as [n|m].
  - rewrite N by reflexivity. unfold log_step. cbn [log_race lthreads]. rewrite S2. cbn [lpc ltodo].
    destruct b as [n'|m']; cbn [log_race]; apply existsb_exists; eexists; (split; [apply I|reflexivity]).
  - rewrite N by reflexivity. destruct b as [n'|m']; [|destruct Hn as [[]|[]]].
    unfold log_step. cbn [log_race lthreads]. rewrite S2. cbn [lpc ltodo log_race]. apply existsb_exists. eexists. split; [apply I|reflexivity].
Qed.
Theorem C127_name_race_refuted : forall programs t u P Q a b, t <> u ->
  nth_error programs t = Some (a :: P) -> nth_error programs u = Some (b :: Q) -> names a ->
  log_race (log_schedule (log_launch programs) [t; u]) = true /\
  log_race (log_schedule (log_launch programs) [u; t]) = true.
Proof.
  intros programs t u P Q a b Hne Ht Hu Hn. split; eapply log_two; eauto.
Qed.

Definition chat : list (list log_op) := [[Say [CStr [104; 105]]; Say [Int 7]]; [Say [CStr [121; 111]]]].
Example C127_example : Forall (Forall (fun o => ~ names o)) chat /\ Forall (fun prog => exists said, speaks prog said) chat.
Proof.
  split; [repeat constructor; intros []|].
  assert (T : forall i, insert_all [i] <> UB -> exists a, message_text [i] a).
  { intros i H. destruct (insert_all [i]) as [a| |] eqn:E; [|congruence|]. { exists a. apply insert_all_Ok, E. }
    exfalso. exact (insert_all_finite _ E). }
  destruct (T (CStr [104; 105])) as [x Hx]; [discriminate|]. destruct (T (Int 7)) as [y Hy]; [discriminate|].
  destruct (T (CStr [121; 111])) as [z Hz]; [discriminate|].
  repeat constructor; eexists; repeat (eapply sp_say; [eassumption|]); constructor.
Qed.

(** ** C128 *)
Lemma session_executed e c t : session e (Transform c :: t) = snd (executed e c) :: session (fst (executed e c)) t.
Proof. cbn [session]. unfold executed. destruct (run_call e c) as [[e' out]| |]; reflexivity. Qed.

Definition left_over (th : fft_thread) : list (res (list C + list R)) :=
  match fpc th with
  | FIdle => session (eng th) (ftodo th)
  | Planning c => session (eng th) (Transform c :: ftodo th)
  | Destroying n => session (new_engine n) (ftodo th)
  end.
Definition fft_inv (programs : list (engine * list fft_op)) (p : fft_process) : Prop :=
  length (fthreads p) = length programs /\
  forall t th e prog, nth_error (fthreads p) t = Some th -> nth_error programs t = Some (e, prog) ->
    session e prog = obtained t (flog p) ++ left_over th.

Lemma fft_inv_step programs p t q : fft_inv programs p -> fft_step p t = Some q -> fft_inv programs q.
Proof.
  intros [Hl Hp] H. unfold fft_step in H. destruct (fft_race p); [discriminate|].
  destruct (nth_error (fthreads p) t) as [th|] eqn:E; [|discriminate].
  assert (Z0 : forall th' race, left_over th' = left_over th ->
    fft_inv programs (mkFP (put (fthreads p) t th') (flog p) race)).
  { intros th' race G. split; [cbn [fthreads]; rewrite put_length; exact Hl|]. cbn [fthreads flog].
    intros u thu e prog Hu Pu. destruct (put_inv _ _ _ _ _ _ E Hu) as [[-> ->]|[Hne Hu']]; [|apply (Hp u); auto].
    rewrite G. apply (Hp _ _ _ _ E Pu). }
  assert (Z1 : forall th' race r, left_over th = r :: left_over th' ->
    fft_inv programs (mkFP (put (fthreads p) t th') (flog p ++ [(t, r)]) race)).
  { intros th' race r G. split; [cbn [fthreads]; rewrite put_length; exact Hl|]. cbn [fthreads flog].
    intros u thu e prog Hu Pu. rewrite obtained_app, obtained_one.
    destruct (put_inv _ _ _ _ _ _ E Hu) as [[-> ->]|[Hne Hu']].
    - rewrite Nat.eqb_refl, <- app_assoc. cbn [app]. rewrite <- G. apply (Hp _ _ _ _ E Pu).
    - replace (Nat.eqb t u) with false by (symmetry; apply Nat.eqb_neq; congruence). rewrite app_nil_r. apply (Hp u); auto. }
  destruct (fpc th) as [|c|n] eqn:P.
  - destruct (ftodo th) as [|[c|n] rest] eqn:D; [discriminate| |].
    + destruct (plan (eng th)) eqn:Q; inversion H; subst q.
      * apply Z1. unfold left_over. rewrite P, D. cbn [fpc ftodo eng]. apply session_executed.
      * apply Z0. unfold left_over. rewrite P, D. reflexivity.
    + destruct (plan (eng th)) eqn:Q; inversion H; subst q; apply Z0; unfold left_over; rewrite P, D; reflexivity.
  - inversion H; subst q. apply Z1. unfold left_over. rewrite P. cbn [fpc ftodo eng]. apply session_executed.
  - inversion H; subst q. apply Z0. unfold left_over. rewrite P. reflexivity.
Qed.
Lemma fft_inv_schedule programs s : forall p, fft_inv programs p -> fft_inv programs (fft_schedule p s).
Proof.
  induction s as [|t s IH]; intros p I; [exact I|]. cbn [fft_schedule]. apply IH.
  destruct (fft_step p t) eqn:E; [eapply fft_inv_step; eauto|exact I].
Qed.
Lemma fft_inv_launch programs : fft_inv programs (fft_launch programs).
Proof.
  split; cbn [fft_launch fthreads flog]; [apply map_length|]. intros t th e prog H1 H2. rewrite nth_error_map, H2 in H1.
  inversion H1; subst. reflexivity.
Qed.

(** Unless two threads meet in the planner, every thread gets the results it would get alone. *)
Theorem C128_results : forall programs s t e prog, nth_error programs t = Some (e, prog) ->
  let p := fft_schedule (fft_launch programs) s in
  fft_race p = false ->
  (exists rest, session e prog = obtained t (flog p) ++ rest) /\
  ((forall u, fft_step p u = None) -> obtained t (flog p) = session e prog).
Proof.
  intros programs s t e prog Hp p Hr.
  destruct (fft_inv_schedule programs s _ (fft_inv_launch programs)) as [Hl Hi]. fold p in Hl, Hi.
  destruct (nth_error (fthreads p) t) as [th|] eqn:E.
  - specialize (Hi _ _ _ _ E Hp). split; [eexists; exact Hi|]. intros Hn. specialize (Hn t). unfold fft_step in Hn.
    rewrite Hr, E in Hn. rewrite Hi. unfold left_over. destruct (fpc th) eqn:P; try discriminate.
    destruct (ftodo th) as [|[|]] eqn:D; [rewrite app_nil_r; reflexivity| |]; destruct (plan (eng th)); discriminate.
  - exfalso. apply nth_error_None in E. rewrite Hl in E. assert (t < length programs)%nat; [|lia].
    apply nth_error_Some. congruence.
Qed.

(** Threads never meet there if every engine already has its plan and is kept. *)
Theorem C128_planned_safe : forall programs s,
  Forall (fun a => plan (fst a) <> None /\ Forall (fun o => ~ renews o) (snd a)) programs ->
  fft_race (fft_schedule (fft_launch programs) s) = false.
Proof.
  intros programs s H.
  set (ok := fun th => fpc th = FIdle /\ plan (eng th) <> None /\ Forall (fun o => ~ renews o) (ftodo th)).
  assert (G : forall s p, fft_race p = false -> Forall ok (fthreads p) -> fft_race (fft_schedule p s) = false).
  { clear. induction s as [|t s IH]; intros p Hr Ho; [exact Hr|]. cbn [fft_schedule]. unfold fft_step. rewrite Hr.
    destruct (nth_error (fthreads p) t) as [th|] eqn:E; [|apply IH; auto].
    assert (Ht : ok th) by (rewrite Forall_forall in Ho; apply Ho; eapply nth_error_In; eauto).
    destruct Ht as [H1 [H2 H3]]. rewrite H1. destruct (ftodo th) as [|[c|n] rest]; [apply IH; auto| |].
    - destruct (plan (eng th)) as [k|] eqn:Q; [|congruence]. apply IH; [reflexivity|]. cbn [fthreads].
      apply Forall_forall. intros x Hx. apply put_in in Hx as [->|Hx]; [|rewrite Forall_forall in Ho; auto].
      split; [reflexivity|]. cbn [eng ftodo]. inversion H3; subst. split; [|assumption].
      unfold executed. destruct (run_call (eng th) c) as [[e' out]| |] eqn:R; cbn [fst]; try congruence.
      assert (K : plan e' = plan (eng th)); [|congruence].
      assert (Pl : forall j, planned (eng th) j = plan (eng th)) by (intros j; unfold planned; rewrite Q; reflexivity).
      destruct c; cbn [run_call] in R;
        unfold eng_cdft, eng_cidft, eng_dft, eng_idft, eng_dht, eng_dct, eng_idct in R; rewrite Pl in R;
        match type of R with bind (bind ?a _) _ = _ => destruct a; cbn in R; inversion R; reflexivity end.
    - inversion H3 as [|? ? Hx _]; subst. exfalso. apply Hx. exact I. }
  apply G; [reflexivity|]. cbn [fft_launch fthreads]. apply Forall_forall. intros x Hx. apply in_map_iff in Hx as [[e prog] [<- Hi]].
  rewrite Forall_forall in H. destruct (H _ Hi). split; [reflexivity|]. auto.
Qed.

(** Nor if only one thread transforms. *)
Theorem C128_one_thread : forall programs s t,
  (forall u a, nth_error programs u = Some a -> u <> t -> snd a = []) ->
  fft_race (fft_schedule (fft_launch programs) s) = false.
Proof.
  intros programs s t H.
  set (ok := fun p => fft_race p = false /\ forall u th, nth_error (fthreads p) u = Some th -> u <> t -> ftodo th = [] /\ fpc th = FIdle).
  assert (G : forall s p, ok p -> ok (fft_schedule p s)).
  { clear. induction s as [|u s IH]; intros p [Hr Ho]; [split; auto|]. cbn [fft_schedule]. apply IH. unfold fft_step. rewrite Hr.
    destruct (nth_error (fthreads p) u) as [th|] eqn:E; [|split; auto].
    destruct (Nat.eq_dec u t) as [->|Hne].
    - assert (Fp : forall th' lg, ok (mkFP (put (fthreads p) t th') lg false)).
      { intros th' lg. split; [reflexivity|]. intros v thv Hv Hvt. cbn [fthreads] in Hv. rewrite put_other in Hv by congruence. eauto. }
      assert (Fr : fpc th = FIdle -> existsb in_planner (fthreads p) = false).
      { intros Ht. apply Bool.not_true_is_false. intros Hx. apply existsb_exists in Hx as [x [Hi Hx]].
        apply In_nth_error in Hi as [v Hv]. unfold in_planner in Hx. destruct (Nat.eq_dec v t) as [->|Hvt].
        - rewrite E in Hv. inversion Hv; subst x. rewrite Ht in Hx. discriminate.
        - destruct (Ho _ _ Hv Hvt) as [_ Hf]. rewrite Hf in Hx. discriminate. }
      destruct (fpc th) eqn:P; [|apply Fp|apply Fp].
      destruct (ftodo th) as [|[c|n] rest]; [split; auto| |]; destruct (plan (eng th)); try apply Fp; rewrite Fr by reflexivity; apply Fp.
    - destruct (Ho _ _ E Hne) as [Ht Hf]. rewrite Hf, Ht. split; auto. }
  apply G. split; [reflexivity|]. intros u th Hu Hne. cbn [fft_launch fthreads] in Hu. rewrite nth_error_map in Hu.
  destruct (nth_error programs u) as [a|] eqn:E; inversion Hu; subst. cbn. split; [eapply H; eauto|reflexivity].
Qed.

(** But two threads that start with a transform on a new engine, or with the end of an engine that
    has transformed, race if they start together, whatever other threads do. *)
Definition plans (e : engine) (o : fft_op) : Prop :=
  match o with Transform _ => plan e = None | Renew _ => plan e <> None end.
Theorem C128_race_refuted : forall programs t u e f a b P Q, t <> u ->
  nth_error programs t = Some (e, a :: P) -> nth_error programs u = Some (f, b :: Q) ->
  plans e a -> plans f b ->
  fft_race (fft_schedule (fft_launch programs) [t; u]) = true.
Proof.
  intros programs t u e f a b P Q Hne Ht Hu He Hf. cbn [fft_schedule].
  assert (Et : nth_error (fthreads (fft_launch programs)) t = Some (mkFT (a :: P) FIdle e))
    by (cbn [fft_launch fthreads]; rewrite nth_error_map, Ht; reflexivity).
  assert (Eu : nth_error (fthreads (fft_launch programs)) u = Some (mkFT (b :: Q) FIdle f))
    by (cbn [fft_launch fthreads]; rewrite nth_error_map, Hu; reflexivity).
  assert (N : existsb in_planner (fthreads (fft_launch programs)) = false).
  { apply Bool.not_true_is_false. intros Hx. apply existsb_exists in Hx as [x [Hi Hx]]. cbn [fft_launch fthreads] in Hi.
    apply in_map_iff in Hi as [[e' p'] [<- _]]. discriminate. }
  assert (K : forall th, in_planner th = true ->
    match fft_step (mkFP (put (fthreads (fft_launch programs)) t th) [] false) u with Some q => fft_race q | None => false end = true).
  { intros th Hp. unfold fft_step. cbn [fft_race fthreads]. rewrite put_other by exact Hne. rewrite Eu. cbn [fpc ftodo eng].
    assert (X : existsb in_planner (put (fthreads (fft_launch programs)) t th) = true)
      by (apply existsb_exists; exists th; split; [eapply nth_error_In; eapply put_same; eauto|exact Hp]).
    destruct b as [d|n]; cbn [plans] in Hf; [rewrite Hf; exact X|]. destruct (plan f); [exact X|congruence]. }
  assert (G : exists th, in_planner th = true /\
    fft_step (fft_launch programs) t = Some (mkFP (put (fthreads (fft_launch programs)) t th) [] false)).
  { unfold fft_step. rewrite Et. cbn [fft_launch fft_race fpc ftodo eng flog]. change (map _ programs) with (fthreads (fft_launch programs)).
    destruct a as [d|n]; cbn [plans] in He.
    - rewrite He, N. eexists. split; [|reflexivity]. reflexivity.
    - destruct (plan e); [|congruence]. rewrite N. eexists. split; [|reflexivity]. reflexivity. }
  destruct G as [th [Hp ->]]. specialize (K th Hp). destruct (fft_step _ u) as [q|]; [exact K|discriminate].
Qed.

Example C128_example :
  Forall (fun a => plan (fst a) <> None /\ Forall (fun o => ~ renews o) (snd a))
    [(mkEngine 2 (Some DctII), [Transform (CallDct [1%R; 2%R])]); (mkEngine 1 (Some R2C), [Transform (CallRDft [3%R])])] /\
  plans (new_engine 4) (Transform (CallDct [1%R; 2%R; 3%R; 4%R])) /\ plans (mkEngine 2 (Some DctII)) (Renew 8).
Proof. split; [repeat constructor; cbn; try discriminate; intros []|split; [reflexivity|discriminate]]. Qed.
Print Assumptions C127_complete.
Print Assumptions C127_settings_first.
Print Assumptions C127_undefined_message.
Print Assumptions C127_mixed_refuted.
Print Assumptions C127_name_race_refuted.
Print Assumptions C128_results.
Print Assumptions C128_planned_safe.
Print Assumptions C128_one_thread.
Print Assumptions C128_race_refuted.
