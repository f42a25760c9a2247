(** C126: the environment used from several threads.  All theorems hold for every environment, every
    number of threads, every program of each thread and every schedule. *)
From Coq Require Import Lia.
From Verif Require Import Base CoreModel CoreSpec CoreProofs ThreadModel ThreadSpec ThreadProofs.
Local Open Scope Z_scope.

(** Calls take effect one at a time, in the order in which they return: the results are those of the
    same calls made one after the other by one thread, and so is the environment whenever no call is
    in progress. *)
Theorem C126_atomic : forall env programs s, Forall (Forall tame) programs ->
  let p := schedule (launch env programs) s in
  exists env', env_run env (calls (trace_of p)) = Ok (env', results (trace_of p)) /\
               (owner p = None -> strings (mem p) = env').
Proof.
  intros env programs s Ht p.
  destruct (inv_schedule env programs Ht s _ _ (inv_launch env programs)) as [e' I]. exists e'.
  split; [exact (inv_run _ _ _ _ I)|]. intros O. pose proof (inv_own _ _ _ _ I) as W. fold p in W. rewrite O in W. exact W.
Qed.

(** With valid names: the results are those of a map from names to values. *)
Theorem C126_map : forall env programs s, Forall (Forall tame) programs ->
  let p := schedule (launch env programs) s in
  Forall call_ok (calls (trace_of p)) ->
  results (trace_of p) = env_spec_actual (getenv env) (calls (trace_of p)).
Proof.
  intros env programs s Ht p Hc. destruct (C126_atomic env programs s Ht) as [e1 [H1 _]]. fold p in H1.
  destruct (env_run_actual _ env _ (represents_any env) Hc) as [e2 H2]. rewrite H1 in H2. congruence.
Qed.

(** Each thread does what its program says, in that order. *)
Theorem C126_order : forall env programs s, Forall (Forall tame) programs ->
  let p := schedule (launch env programs) s in
  forall t prog, nth_error programs t = Some prog -> exists rest, prog = actions_of t (trace_of p) ++ rest.
Proof.
  intros env programs s Ht p t prog Hp.
  destruct (inv_schedule env programs Ht s _ _ (inv_launch env programs)) as [e' I]. fold p in I.
  destruct (nth_error (threads p) t) as [th|] eqn:E.
  - exists (todo th). eapply inv_prog; eauto.
  - exfalso. apply nth_error_None in E. rewrite (inv_len _ _ _ _ I) in E. assert (t < length programs)%nat; [|lia].
    apply nth_error_Some. congruence.
Qed.

(** There is no deadlock: as long as some thread has not finished its program, some thread can move. *)
Theorem C126_progress : forall env programs s, Forall (Forall tame) programs ->
  let p := schedule (launch env programs) s in
  (exists t, step p t <> None) \/
  (owner p = None /\ forall t prog, nth_error programs t = Some prog -> actions_of t (trace_of p) = prog).
Proof.
  intros env programs s Ht p.
  destruct (inv_schedule env programs Ht s _ _ (inv_launch env programs)) as [e' I]. fold p in I.
  destruct (inv_progress _ _ _ _ I) as [H|[O H]]; [left; exact H|right]. split; [exact O|].
  intros t prog Hp. destruct (nth_error (threads p) t) as [th|] eqn:E.
  - pose proof (inv_prog _ _ _ _ I _ _ _ E Hp) as P. rewrite (H _ _ E), app_nil_r in P. congruence.
  - exfalso. apply nth_error_None in E. rewrite (inv_len _ _ _ _ I) in E. assert (t < length programs)%nat; [|lia].
    apply nth_error_Some. congruence.
Qed.

(** And it ends: however the threads are scheduled, they move at most this often in all. *)
Theorem C126_terminates : forall env programs s, Forall (Forall tame) programs ->
  (moves (launch env programs) s <= (length env + total programs + 4) * total programs)%nat.
Proof.
  intros env programs s Ht. rewrite <- (launch_cost env programs).
  apply (moves_cost env programs Ht s _ env); [apply inv_launch|apply launch_accounted].
Qed.

(** Threads that set a variable without overwriting agree on one value, for good. *)
Lemma spec_first n h : forall m v, Forall (fun c => ~ overwrites n (Do c)) h -> m n = Some v ->
  forall k w, nth_error h k = Some (CGet n) -> nth_error (env_spec_actual m h) k = Some (RGet (inl w)) -> w = v.
Proof.
  induction h as [|c h IH]; intros m v Ho Hm k w H1 H2; [destruct k; discriminate|].
  inversion Ho as [|? ? Hc Ho']; subst. destruct k as [|k].
  - cbn in H1. inversion H1; subst. cbn in H2. rewrite Hm in H2. destruct v; inversion H2; reflexivity.
  - destruct c as [x|x|x y o]; cbn in H1, H2; try solve [eapply IH; eauto].
    eapply (IH (vset m x y o)); eauto. unfold vset. destruct (eqs n x) eqn:E; [|exact Hm].
    apply eqs_spec in E. subst x. rewrite Hm. destruct o; [|reflexivity]. exfalso. apply Hc. reflexivity.
Qed.
Lemma spec_once n h : forall m, Forall (fun c => ~ overwrites n (Do c)) h ->
  forall i j v w, (i < j)%nat -> nth_error h i = Some (CGet n) -> nth_error h j = Some (CGet n) ->
  nth_error (env_spec_actual m h) i = Some (RGet (inl v)) -> nth_error (env_spec_actual m h) j = Some (RGet (inl w)) -> v = w.
Proof.
  induction h as [|c h IH]; intros m Ho i j v w Hij H1 H2 H3 H4; [destruct i; discriminate|].
  inversion Ho as [|? ? Hc Ho']; subst. destruct i as [|i]; (destruct j as [|j]; [lia|]).
  - cbn in H1. inversion H1; subst. cbn in H2, H3, H4.
    destruct (m n) as [[|a u]|] eqn:M; inversion H3; subst. symmetry. eapply spec_first; eauto.
  - destruct c as [x|x|x y o]; cbn in H1, H2, H3, H4.
    + apply (IH m Ho' i j v w); auto. lia.
    + apply (IH m Ho' i j v w); auto. lia.
    + apply (IH (vset m x y o) Ho' i j v w); auto. lia.
Qed.

Theorem C126_agreement : forall env programs s n, Forall (Forall tame) programs ->
  Forall (Forall (fun a => ~ overwrites n a)) programs ->
  let p := schedule (launch env programs) s in Forall call_ok (calls (trace_of p)) ->
  forall i j v w, nth_error (calls (trace_of p)) i = Some (CGet n) -> nth_error (calls (trace_of p)) j = Some (CGet n) ->
  nth_error (results (trace_of p)) i = Some (RGet (inl v)) -> nth_error (results (trace_of p)) j = Some (RGet (inl w)) -> v = w.
Proof.
  intros env programs s n Ht Ho p Hc i j v w H1 H2 H3 H4. pose proof (C126_map env programs s Ht Hc) as R. fold p in R.
  rewrite R in H3, H4.
  assert (Hp : Forall (fun c => ~ overwrites n (Do c)) (calls (trace_of p))).
  { apply Forall_forall. intros c Hi.
    assert (G : exists t, In (Do c) (actions_of t (trace_of p)) /\ exists prog, nth_error programs t = Some prog).
    { destruct (inv_schedule env programs Ht s _ _ (inv_launch env programs)) as [e' I]. fold p in I.
      assert (K : forall tr : list event, In c (calls tr) -> exists t, In (Do c) (actions_of t tr)).
      { induction tr as [|[t d r|t r] tr IH]; cbn [calls actions_of]; [intros []| |].
        - intros [->|Hx]; [exists t; rewrite Nat.eqb_refl; left; reflexivity|].
          destruct (IH Hx) as [u Hu]. exists u. destruct (Nat.eqb t u); [right|]; exact Hu.
        - intros Hx. destruct (IH Hx) as [u Hu]. exists u. destruct (Nat.eqb t u); [right|]; exact Hu. }
      destruct (K _ Hi) as [t Hti]. exists t. split; [exact Hti|].
      destruct (nth_error programs t) as [prog|] eqn:E; [eauto|exfalso].
      destruct (trace_threads env programs s t _ Ht Hti) as [prog Hpg]. congruence. }
    destruct G as [t [G1 [prog G2]]]. destruct (C126_order env programs s Ht t prog G2) as [rest Hr].
    rewrite Forall_forall in Ho. specialize (Ho prog (nth_error_In _ _ G2)). rewrite Forall_forall in Ho. apply Ho.
    rewrite Hr. apply in_or_app. left. exact G1. }
  destruct (Nat.lt_trichotomy i j) as [L|[L|L]].
  - eapply (spec_once n _ _ Hp i j); eauto.
  - subst j. congruence.
  - symmetry. eapply (spec_once n _ _ Hp j i); eauto.
Qed.

(** The text of a view stays readable, whatever the other threads do to other variables, as long as
    no thread overwrites this one.  Missing from the property: see the next theorem. *)
Theorem C126_view_partial : forall env programs s n, Forall (Forall tame) programs ->
  ~ In 61 n -> Forall (Forall (fun a => ~ overwrites n a)) programs ->
  forall l1 t v l2 r l3,
  trace_of (schedule (launch env programs) s) = l1 ++ Returned t (CGet n) (RGet (inl v)) :: l2 ++ WasRead t r :: l3 ->
  Forall (fun e => ~ gives_view t e) l2 -> r = Ok v.
Proof.
  intros env programs s n Ht Hn Ho l1 t v l2 r l3 H Hl.
  eapply (v_reads programs _ (vinv_schedule env programs Ht s _ _ (inv_launch env programs) (vinv_launch env programs))); eauto.
  split; assumption.
Qed.

(** A thread that overwrites the variable between the call and the use of its result invalidates the
    view: the lock is released before the text is used. *)
Definition PATH : list Z := [80; 65; 84; 72].
Definition readers : list (list action) := [[Do (CGet PATH); ReadView]; [Do (CSet PATH [98] true)]].
Theorem C126_view_refuted : exists s,
  trace_of (schedule (launch [PATH ++ 61 :: [97]] readers) s) =
    [Returned 0 (CGet PATH) (RGet (inl [97])); Returned 1 (CSet PATH [98] true) (RSet no_error); WasRead 0 UB].
Proof. exists [0; 0; 0; 0; 1; 1; 1; 1; 0]%nat. vm_compute. reflexivity. Qed.

(** Testing for a variable and then setting it is two calls: two threads may both find it missing. *)
Theorem C126_test_and_set_refuted : exists s,
  trace_of (schedule (launch [] [[Do (CExist PATH); Do (CSet PATH [97] true)]; [Do (CExist PATH); Do (CSet PATH [98] true)]]) s) =
    [Returned 0 (CExist PATH) (RExist false); Returned 1 (CExist PATH) (RExist false);
     Returned 0 (CSet PATH [97] true) (RSet no_error); Returned 1 (CSet PATH [98] true) (RSet no_error)].
Proof. exists [0;0;0;0; 1;1;1;1; 0;0;0;0; 1;1;1;1;1]%nat. vm_compute. reflexivity. Qed.

(** Two threads adding variables and reading, interleaved: each waits for the other, both finish. *)
Definition writers : list (list action) :=
  [[Do (CSet PATH [97] false); Do (CGet PATH); ReadView]; [Do (CSet PATH [98] false); Do (CGet PATH); ReadView]].
Definition busy : list nat := [0;1;0;1;0;1;0;1;0;1;0;1;0;1;0;1;0;1;0;1;0;1;0;1;0;1;1;1;1;1;1]%nat.
Example C126_example : Forall (Forall tame) writers /\ Forall (Forall (fun a => ~ overwrites PATH a)) writers /\
  trace_of (schedule (launch [] writers) busy) =
    [Returned 0 (CSet PATH [97] false) (RSet no_error); Returned 1 (CSet PATH [98] false) (RSet no_error);
     Returned 0 (CGet PATH) (RGet (inl [97])); WasRead 0 (Ok [97]);
     Returned 1 (CGet PATH) (RGet (inl [97])); WasRead 1 (Ok [97])] /\
  Forall call_ok (calls (trace_of (schedule (launch [] writers) busy))).
Proof.
  split; [|split; [|split]].
  - repeat constructor; cbn; intuition discriminate.
  - repeat constructor; cbn; intuition discriminate.
  - vm_compute. reflexivity.
  - match goal with |- Forall _ ?l => let v := eval vm_compute in l in change l with v end.
    repeat (apply Forall_cons; [unfold call_ok, valid_name, valid_value; repeat split; cbn; intuition discriminate|]). constructor.
Qed.
Print Assumptions C126_atomic.
Print Assumptions C126_map.
Print Assumptions C126_order.
Print Assumptions C126_progress.
Print Assumptions C126_terminates.
Print Assumptions C126_agreement.
Print Assumptions C126_view_partial.
Print Assumptions C126_view_refuted.
Print Assumptions C126_test_and_set_refuted.
