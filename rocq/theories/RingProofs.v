From Verif Require Import Base BaseProofs RingModel RingSpec.
From Coq Require Import ZifyNat.
Ltac Zify.zify_post_hook ::= Z.div_mod_to_equations.

Section RingProofs.
Context {A : Type}.
Implicit Types r : ring A.

Definition wf r : Prop :=
  length (cells r) = rcap r /\ rsize r <= rcap r /\ (rfront r < rcap r \/ (rcap r = 0 /\ rfront r = 0)).

Definition repr r (l : list A) : Prop :=
  wf r /\ length l = rsize r /\
  forall i, i < rsize r -> nth_error (cells r) ((rfront r + i) mod rcap r) = nth_error l i.

Lemma mod_neq c f i j : i < c -> j < c -> i <> j -> (f + i) mod c <> (f + j) mod c.
Proof.
  intros Hi Hj Hij E.
  assert (Hc : c <> 0) by lia.
  pose proof (Nat.div_mod (f + i) c Hc) as D1.
  pose proof (Nat.div_mod (f + j) c Hc) as D2.
  rewrite E in D1.
  assert (f + i - (f + j) = c * ((f + i) / c) - c * ((f + j) / c)) by lia.
  assert (f + j - (f + i) = c * ((f + j) / c) - c * ((f + i) / c)) by lia.
  destruct (Nat.lt_trichotomy ((f + i) / c) ((f + j) / c)) as [L|[L|L]]; nia.
Qed.

Lemma mod_lt a c : 0 < c -> a mod c < c.
Proof. intros; apply Nat.mod_upper_bound; lia. Qed.

Lemma repr_new d n : repr (ring_new d n) [].
Proof.
  unfold repr, wf; simpl. rewrite repeat_length. repeat split; try lia.
Qed.

Lemma repr_filled v n : repr (ring_filled v n) (repeat v n).
Proof.
  unfold repr, wf; simpl. rewrite repeat_length. repeat split; try lia.
  intros i Hi. rewrite Nat.mod_small by lia. reflexivity.
Qed.

Lemma repr_cap_pos r l a t : repr r l -> l = a :: t -> 0 < rcap r.
Proof. intros [[H1 [H2 H3]] [H4 _]] ->; simpl in *; lia. Qed.

Lemma at_repr r l i : repr r l -> i < length l ->
  exists a, at_ r i = Ok a /\ nth_error l i = Some a.
Proof.
  intros [[H1 [H2 H3]] [H4 H5]] Hi.
  unfold at_, normalize.
  destruct (Nat.eqb_spec (rcap r) 0) as [E|E]; [lia|]. simpl.
  destruct (load_ok (cells r) ((rfront r + i) mod rcap r)) as [a [L N]].
  - rewrite H1; apply mod_lt; lia.
  - exists a; split; [exact L|]. rewrite <- H5 by lia. exact N.
Qed.

Lemma iterate_from_repr r l k idx : repr r l -> idx + k = length l ->
  iterate_from r idx k = Ok (skipn idx l).
Proof.
  intros HR. revert idx; induction k as [|k IH]; intros idx Hk; simpl.
  - rewrite skipn_all2 by lia; reflexivity.
  - destruct (at_repr r l idx HR ltac:(lia)) as [a [E N]].
    rewrite E; simpl. rewrite IH by lia. unfold rmap; simpl.
    f_equal. clear -N Hk. revert idx Hk N; induction l as [|x l IHl]; intros idx Hk N.
    + destruct idx; discriminate.
    + destruct idx as [|idx]; simpl in *; [congruence|].
      apply IHl; auto; lia.
Qed.

Lemma iterate_repr r l : repr r l -> iterate r = Ok l.
Proof.
  intros HR. unfold iterate. rewrite (iterate_from_repr r l) by (auto; destruct HR as [_ [H _]]; unfold size; lia).
  reflexivity.
Qed.

Lemma front_repr r l a t : repr r l -> l = a :: t -> front r = Ok a.
Proof.
  intros HR ->. destruct (at_repr r (a :: t) 0 HR ltac:(simpl; lia)) as [b [E N]].
  unfold front; rewrite E. simpl in N; congruence.
Qed.

Lemma nth_error_last_rev (l : list A) a t : rev l = a :: t -> nth_error l (length l - 1) = Some a.
Proof.
  intros H. assert (E : l = rev t ++ [a]) by (rewrite <- (rev_involutive l), H; reflexivity).
  rewrite E, app_length; simpl.
  replace (length (rev t) + 1 - 1) with (length (rev t)) by lia.
  rewrite nth_error_app2 by lia. rewrite Nat.sub_diag. reflexivity.
Qed.

Lemma back_repr r l a t : repr r l -> rev l = a :: t -> back r = Ok a.
Proof.
  intros HR Hl. pose proof (nth_error_last_rev l a t Hl) as HN.
  assert (Hlen : 0 < length l) by (rewrite <- rev_length, Hl; simpl; lia).
  destruct HR as [HW [HL HC]]. unfold back.
  destruct (Nat.eqb_spec (rsize r) 0) as [E|E]; [lia|].
  destruct (at_repr r l (rsize r - 1) ltac:(repeat split; auto; apply HW) ltac:(lia)) as [b [Eb N]].
  rewrite Eb. rewrite <- HL in N. congruence.
Qed.

(** front index arithmetic *)
Lemma front_succ f c i : 0 < c -> ((f + 1) mod c + i) mod c = (f + (i + 1)) mod c.
Proof.
  intros Hc. rewrite Nat.add_mod_idemp_l by lia. f_equal; lia.
Qed.
Lemma front_pred f c i : 0 < c -> ((f + c - 1) mod c + (i + 1)) mod c = (f + i) mod c.
Proof.
  intros Hc. rewrite Nat.add_mod_idemp_l by lia.
  replace (f + c - 1 + (i + 1)) with (f + i + 1 * c) by lia.
  apply Nat.mod_add; lia.
Qed.

Lemma push_back_repr r l a : repr r l -> 0 < rcap r ->
  exists r', push_back r a = Ok r' /\ rcap r' = rcap r /\
    repr r' (if length l <? rcap r then l ++ [a] else tl l ++ [a]).
Proof.
  intros [[H1 [H2 H3]] [H4 H5]] Hc.
  unfold push_back, full, increment_front_and_back, increment_back, set_back_, normalize.
  destruct (Nat.eqb_spec (rsize r) (rcap r)) as [F|F].
  - destruct (Nat.eqb_spec (rcap r) 0) as [E|E]; [lia|]. simpl.
    destruct (Nat.eqb_spec (rcap r) 0) as [E'|_]; [lia|]. simpl.
    set (f := (rfront r + 1) mod rcap r).
    assert (Hf : f < rcap r) by (apply mod_lt; lia).
    destruct (store_ok (cells r) ((f + rsize r - 1) mod rcap r) a) as [cs [S1 [S2 [S3 S4]]]].
    { rewrite H1; apply mod_lt; lia. }
    rewrite S1; simpl. eexists; split; [reflexivity|]; split; [reflexivity|].
    destruct (Nat.ltb_spec (length l) (rcap r)); [lia|].
    destruct l as [|x l]; [simpl in *; lia|]. simpl in *.
    split; [repeat split; simpl; lia|]. split; [simpl; rewrite app_length; simpl; lia|].
    simpl. intros i Hi.
    destruct (Nat.eq_dec i (rsize r - 1)) as [Ei|Ei].
    + subst i. replace (f + (rsize r - 1)) with (f + rsize r - 1) by lia. rewrite S3.
      rewrite nth_error_app2 by lia. replace (rsize r - 1 - length l) with 0 by lia. reflexivity.
    + rewrite S4.
      * rewrite nth_error_app1 by lia.
        unfold f; rewrite front_succ by lia. rewrite H5 by lia.
        replace (i + 1) with (S i) by lia. reflexivity.
      * replace (f + rsize r - 1) with (f + (rsize r - 1)) by lia.
        apply mod_neq; lia.
  - simpl. destruct (Nat.eqb_spec (rcap r) 0) as [E|E]; [lia|]. simpl.
    destruct (store_ok (cells r) ((rfront r + (rsize r + 1) - 1) mod rcap r) a) as [cs [S1 [S2 [S3 S4]]]].
    { rewrite H1; apply mod_lt; lia. }
    rewrite S1; simpl. eexists; split; [reflexivity|]; split; [reflexivity|].
    destruct (Nat.ltb_spec (length l) (rcap r)); [|lia].
    split; [repeat split; simpl; lia|]. split; [simpl; rewrite app_length; simpl; lia|].
    simpl. intros i Hi.
    destruct (Nat.eq_dec i (rsize r)) as [Ei|Ei].
    + subst i. replace (rfront r + rsize r) with (rfront r + (rsize r + 1) - 1) by lia. rewrite S3.
      rewrite nth_error_app2 by lia. replace (rsize r - length l) with 0 by lia. reflexivity.
    + rewrite S4.
      * rewrite nth_error_app1 by lia. apply H5; lia.
      * replace (rfront r + (rsize r + 1) - 1) with (rfront r + rsize r) by lia.
        apply mod_neq; lia.
Qed.

Lemma nth_error_removelast (l : list A) i : i < length l - 1 ->
  nth_error (removelast l) i = nth_error l i.
Proof.
  intros Hi. destruct l as [|x l]; [simpl in *; lia|].
  assert (E : x :: l = removelast (x :: l) ++ [last (x :: l) x]) by (apply app_removelast_last; discriminate).
  assert (Hl : length (x :: l) = length (removelast (x :: l)) + 1)
    by (rewrite E at 1; rewrite app_length; reflexivity).
  rewrite E at 2. rewrite nth_error_app1; [reflexivity|]. lia.
Qed.

Lemma length_removelast (l : list A) : length (removelast l) = length l - 1.
Proof.
  destruct l as [|x l]; [reflexivity|].
  assert (E : x :: l = removelast (x :: l) ++ [last (x :: l) x]) by (apply app_removelast_last; discriminate).
  assert (Hl : length (x :: l) = length (removelast (x :: l)) + 1)
    by (rewrite E at 1; rewrite app_length; reflexivity).
  lia.
Qed.

Lemma push_front_repr r l a : repr r l -> 0 < rcap r ->
  exists r', push_front r a = Ok r' /\ rcap r' = rcap r /\
    repr r' (if length l <? rcap r then a :: l else a :: but_last l).
Proof.
  intros [[H1 [H2 H3]] [H4 H5]] Hc.
  unfold push_front, full, decrement_front_and_back, decrement_front, set_front_, normalize.
  assert (Hz : (rcap r =? 0) = false) by (apply Nat.eqb_neq; lia). rewrite Hz.
  set (f := (rfront r + rcap r - 1) mod rcap r).
  assert (Hf : f < rcap r) by (apply mod_lt; lia).
  destruct (store_ok (cells r) f a) as [cs [S1 [S2 [S3 S4]]]]; [lia|].
  destruct (Nat.eqb_spec (rsize r) (rcap r)) as [F|F]; simpl; fold f; rewrite S1; simpl;
    (eexists; split; [reflexivity|]; split; [reflexivity|]).
  - destruct (Nat.ltb_spec (length l) (rcap r)); [lia|].
    split; [repeat split; simpl; lia|].
    split; [simpl; unfold but_last; rewrite length_removelast; lia|].
    simpl. intros [|i] Hi.
    + rewrite Nat.add_0_r, Nat.mod_small by lia. exact S3.
    + simpl. unfold but_last. rewrite nth_error_removelast by lia.
      rewrite S4.
      * replace (S i) with (i + 1) by lia. unfold f; rewrite front_pred by lia. apply H5; lia.
      * rewrite <- (Nat.mod_small f (rcap r)) at 2 by lia.
        replace f with (f + 0) at 2 by lia. apply mod_neq; lia.
  - destruct (Nat.ltb_spec (length l) (rcap r)); [|lia].
    split; [repeat split; simpl; lia|].
    split; [simpl; lia|].
    simpl. intros [|i] Hi.
    + rewrite Nat.add_0_r, Nat.mod_small by lia. exact S3.
    + simpl. rewrite S4.
      * replace (S i) with (i + 1) by lia. unfold f; rewrite front_pred by lia. apply H5; lia.
      * rewrite <- (Nat.mod_small f (rcap r)) at 2 by lia.
        replace f with (f + 0) at 2 by lia. apply mod_neq; lia.
Qed.

Lemma pop_front_repr r a t : repr r (a :: t) ->
  exists r', pop_front r = Ok (r', a) /\ rcap r' = rcap r /\ repr r' t.
Proof.
  intros HR. pose proof HR as HR0. destruct HR as [[H1 [H2 H3]] [H4 H5]]. simpl in H4.
  unfold pop_front, empty, get_front_, increment_front, normalize.
  assert (Hz : (rcap r =? 0) = false) by (apply Nat.eqb_neq; lia). rewrite Hz.
  assert (Hs : (rsize r =? 0) = false) by (apply Nat.eqb_neq; lia). rewrite Hs.
  pose proof (H5 0 ltac:(lia)) as N. rewrite Nat.add_0_r, Nat.mod_small in N by lia.
  unfold load. rewrite N. simpl. eexists; split; [reflexivity|]; split; [reflexivity|].
  assert ((rfront r + 1) mod rcap r < rcap r) by (apply mod_lt; lia).
  split; [repeat split; simpl; lia|]. split; [simpl; lia|].
  simpl. intros i Hi. rewrite front_succ by lia. rewrite H5 by lia.
  replace (i + 1) with (S i) by lia. reflexivity.
Qed.

Lemma pop_back_repr r l a t : repr r l -> rev l = a :: t ->
  exists r', pop_back r = Ok (r', a) /\ rcap r' = rcap r /\ repr r' (but_last l).
Proof.
  intros HR Hl. pose proof (nth_error_last_rev l a t Hl) as HN.
  assert (Hlen : 0 < length l) by (rewrite <- rev_length, Hl; simpl; lia).
  destruct HR as [[H1 [H2 H3]] [H4 H5]].
  unfold pop_back, empty, get_back_, decrement_back, normalize.
  assert (Hz : (rcap r =? 0) = false) by (apply Nat.eqb_neq; lia). rewrite Hz.
  assert (Hs : (rsize r =? 0) = false) by (apply Nat.eqb_neq; lia). rewrite Hs.
  pose proof (H5 (rsize r - 1) ltac:(lia)) as N.
  replace (rfront r + (rsize r - 1)) with (rfront r + rsize r - 1) in N by lia.
  rewrite <- H4 in N at 2. rewrite HN in N.
  simpl. unfold load. rewrite N. simpl. eexists; split; [reflexivity|]; split; [reflexivity|].
  split; [repeat split; simpl; lia|]. split; [simpl; unfold but_last; rewrite length_removelast; lia|].
  simpl. intros i Hi. unfold but_last. rewrite nth_error_removelast by lia. apply H5; lia.
Qed.

Lemma repr_clear r l : repr r l -> repr (clear r) [] /\ rcap (clear r) = rcap r.
Proof.
  intros [[H1 [H2 H3]] [H4 H5]]. unfold repr, wf, clear; simpl. repeat split; try lia.
Qed.

Lemma repr_resize d r l n : repr r l -> repr (resize d r n) [] /\ rcap (resize d r n) = n.
Proof.
  intros _. unfold repr, wf, resize; simpl.
  rewrite app_length, firstn_length, repeat_length. repeat split; try lia.
Qed.

(** Simulation of one call. *)
Definition sim r (q : deque A) : Prop := repr r (items q) /\ rcap r = dcap q.

Lemma step_sim d r q o : sim r q ->
  match dstep q o with
  | Some (q', out) => exists r', step d r o = Ok (r', out) /\ sim r' q'
  | None => step d r o = UB
  end.
Proof.
  intros [HR HC]. destruct o as [a|a| | | |n]; simpl.
  - destruct (Nat.eqb_spec (dcap q) 0) as [E|E].
    + unfold push_back, full. destruct HR as [[H1 [H2 H3]] _].
      replace (rsize r) with 0 by lia. rewrite HC, E. simpl.
      unfold increment_front_and_back, normalize. rewrite HC, E. reflexivity.
    + destruct (push_back_repr r (items q) a HR ltac:(lia)) as [r' [P [C R]]].
      rewrite P; simpl. rewrite HC in *. eexists; split; [reflexivity|]. split; simpl; congruence.
  - destruct (Nat.eqb_spec (dcap q) 0) as [E|E].
    + unfold push_front, full. destruct HR as [[H1 [H2 H3]] _].
      replace (rsize r) with 0 by lia. rewrite HC, E. simpl.
      unfold decrement_front_and_back, normalize. rewrite HC, E. reflexivity.
    + destruct (push_front_repr r (items q) a HR ltac:(lia)) as [r' [P [C R]]].
      rewrite P; simpl. rewrite HC in *. eexists; split; [reflexivity|]. split; simpl; congruence.
  - destruct (items q) as [|a t] eqn:E.
    + destruct HR as [_ [H4 _]]. unfold pop_front, empty. rewrite <- H4; reflexivity.
    + destruct (pop_front_repr r a t HR) as [r' [P [C R]]]. rewrite P; simpl.
      eexists; split; [reflexivity|]. split; simpl; congruence.
  - destruct (rev (items q)) as [|a t] eqn:E.
    + destruct HR as [_ [H4 _]]. unfold pop_back, empty. rewrite <- H4, <- rev_length, E; reflexivity.
    + destruct (pop_back_repr r (items q) a t HR E) as [r' [P [C R]]]. rewrite P; simpl.
      eexists; split; [reflexivity|]. split; simpl; congruence.
  - eexists; split; [reflexivity|]. destruct (repr_clear r _ HR) as [R C].
    split; [exact R|]. rewrite C; exact HC.
  - eexists; split; [reflexivity|]. destruct (repr_resize d r _ n HR) as [R C].
    split; [exact R|exact C].
Qed.

Lemma run_sim d ops : forall r q, sim r q ->
  match drun q ops with
  | Some (q', outs) => exists r', run d r ops = Ok (r', outs) /\ sim r' q'
  | None => run d r ops = UB
  end.
Proof.
  induction ops as [|o ops IH]; intros r q HS; simpl.
  - exists r; split; [reflexivity|exact HS].
  - pose proof (step_sim d r q o HS) as H1.
    destruct (dstep q o) as [[q' out]|].
    + destruct H1 as [r' [E HS']]. rewrite E; simpl.
      specialize (IH r' q' HS').
      destruct (drun q' ops) as [[q'' outs]|].
      * destruct IH as [r'' [E' HS'']]. rewrite E'; simpl. eexists; split; [reflexivity|exact HS''].
      * rewrite IH; reflexivity.
    + rewrite H1; reflexivity.
Qed.

Lemma sim_new d n : sim (ring_new d n) (mkDeque n []).
Proof. split; [apply repr_new|reflexivity]. Qed.

Lemma sim_filled v n : sim (ring_filled v n) (mkDeque n (repeat v n)).
Proof. split; [apply repr_filled|reflexivity]. Qed.

(** Push-only histories keep the last [n] elements. *)
Lemma drun_pushes n (l xs : list A) : 0 < n -> length l <= n ->
  drun (mkDeque n l) (map PushBack xs) = Some (mkDeque n (skipn (length (l ++ xs) - n) (l ++ xs)), []).
Proof.
  intros Hn. revert l; induction xs as [|x xs IH]; intros l Hl; simpl.
  - rewrite app_nil_r. replace (length l - n) with 0 by lia. reflexivity.
  - destruct (Nat.eqb_spec n 0) as [E|E]; [lia|].
    destruct (Nat.ltb_spec (length l) n) as [L|L].
    + rewrite IH by (rewrite app_length; simpl; lia). rewrite <- app_assoc. reflexivity.
    + destruct l as [|y l]; [simpl in *; lia|]. cbn [tl].
      rewrite IH by (rewrite app_length; simpl in *; lia). rewrite <- app_assoc. simpl.
      replace (length (l ++ x :: xs) - n) with (length (l ++ x :: xs) - n) by lia.
      destruct n as [|n]; [lia|]. rewrite app_length. simpl in *.
      replace (length l + S (length xs) - n) with (S (length l + S (length xs) - S n)) by lia.
      reflexivity.
Qed.

End RingProofs.

Section RingCorollaries.
Context {A : Type}.

Lemma ring_refines_deque_lemma (d : A) (r0 : ring A) (q0 : deque A) (ops : list (op A)) :
  sim r0 q0 ->
  match drun q0 ops with
  | Some (q, outs) =>
      exists r, run d r0 ops = Ok (r, outs) /\
        iterate r = Ok (items q) /\
        (forall a t, items q = a :: t -> front r = Ok a) /\
        (forall a t, items q = t ++ [a] -> back r = Ok a)
  | None => run d r0 ops = UB
  end.
Proof.
  intros HS. pose proof (run_sim d ops r0 q0 HS) as H.
  destruct (drun q0 ops) as [[q outs]|]; [|exact H].
  destruct H as [r [E [HR HC]]]. exists r; split; [exact E|].
  split; [apply iterate_repr; exact HR|]. split.
  - intros a t Ha; eapply front_repr; eauto.
  - intros a t Ha; eapply back_repr; [exact HR|]. rewrite Ha, rev_app_distr. reflexivity.
Qed.

Lemma keeps_last_lemma (d : A) n (xs : list A) : 0 < n ->
  exists r, run d (ring_new d n) (map PushBack xs) = Ok (r, []) /\
    iterate r = Ok (skipn (length xs - n) xs).
Proof.
  intros Hn. pose proof (run_sim d (map PushBack xs) _ _ (sim_new d n)) as H.
  rewrite drun_pushes in H by (simpl; lia). simpl in H.
  destruct H as [r [E [HR HC]]]. exists r; split; [exact E|]. apply iterate_repr; exact HR.
Qed.

Lemma drun_app (q : deque A) o1 o2 :
  drun q (o1 ++ o2) =
  match drun q o1 with
  | None => None
  | Some (q', outs) =>
      match drun q' o2 with
      | None => None
      | Some (q'', outs') => Some (q'', outs ++ outs')
      end
  end.
Proof.
  revert q; induction o1 as [|o o1 IH]; intros q; simpl.
  - destruct (drun q o2) as [[q'' outs']|]; reflexivity.
  - destruct (dstep q o) as [[q' out]|]; [|reflexivity].
    rewrite IH. destruct (drun q' o1) as [[q1 outs]|]; [|reflexivity].
    destruct (drun q1 o2) as [[q2 outs']|]; [|reflexivity].
    destruct out; reflexivity.
Qed.

Lemma drun_pops (n : nat) (l l' : list A) :
  drun (mkDeque n (l ++ l')) (repeat PopFront (length l)) = Some (mkDeque n l', l).
Proof.
  induction l as [|x l IH]; simpl; [reflexivity|]. rewrite IH. reflexivity.
Qed.

Lemma fifo_lemma (d : A) n (xs : list A) : length xs <= n ->
  exists r, run d (ring_new d n) (map PushBack xs ++ repeat PopFront (length xs)) = Ok (r, xs) /\
    size r = 0.
Proof.
  intros Hn. pose proof (run_sim d (map PushBack xs ++ repeat PopFront (length xs)) _ _ (sim_new d n)) as H.
  destruct xs as [|x xs].
  - simpl. eexists; split; reflexivity.
  - rewrite drun_app in H. rewrite drun_pushes in H by (simpl in *; lia). rewrite app_nil_l in H.
    replace (length (x :: xs) - n) with 0 in H by lia. rewrite skipn_O in H.
    pose proof (drun_pops n (x :: xs) []) as E. rewrite app_nil_r in E. rewrite E in H. clear E.
    destruct H as [r [E' [HR HC]]]. exists r; split; [exact E'|].
    destruct HR as [_ [HL _]]. simpl in HL. unfold size; congruence.
Qed.

Lemma reach_sim (d : A) r0 q0 ops r outs : sim r0 q0 -> run d r0 ops = Ok (r, outs) ->
  exists q, sim r q.
Proof.
  intros HS HR. pose proof (run_sim d ops r0 q0 HS) as H.
  destruct (drun q0 ops) as [[q outs']|].
  - destruct H as [r' [E HS']]. rewrite HR in E. inversion E; subst. eauto.
  - congruence.
Qed.

Lemma size_laws_lemma (d : A) n ops r outs :
  run d (ring_new d n) ops = Ok (r, outs) ->
  size r <= capacity r /\
  (empty r = true <-> size r = 0) /\
  (full r = true <-> size r = capacity r) /\
  (forall a r', push_back r a = Ok r' ->
     size r' = Nat.min (size r + 1) (capacity r) /\ capacity r' = capacity r) /\
  (forall a r', push_front r a = Ok r' ->
     size r' = Nat.min (size r + 1) (capacity r) /\ capacity r' = capacity r) /\
  (forall a r', pop_front r = Ok (r', a) -> size r = size r' + 1 /\ capacity r' = capacity r) /\
  (forall a r', pop_back r = Ok (r', a) -> size r = size r' + 1 /\ capacity r' = capacity r) /\
  size (clear r) = 0 /\ capacity (clear r) = capacity r /\
  (forall m, size (resize d r m) = 0 /\ capacity (resize d r m) = m).
Proof.
  intros H. destruct (reach_sim d _ _ ops r outs (sim_new d n) H) as [q [HR HC]].
  pose proof HR as [[H1 [H2 H3]] [H4 H5]].
  unfold size, capacity, empty, full.
  split; [exact H2|]. split; [apply Nat.eqb_eq|]. split; [apply Nat.eqb_eq|].
  split; [|split; [|split; [|split; [|split; [|split]]]]].
  - intros a r' E. destruct (Nat.eq_dec (rcap r) 0) as [Z|Z].
    + exfalso. revert E. unfold push_back, full, increment_front_and_back, normalize.
      replace (rsize r) with 0 by lia. rewrite Z. simpl. discriminate.
    + destruct (push_back_repr r _ a HR ltac:(lia)) as [r'' [E' [C [_ [L _]]]]].
      rewrite E in E'; inversion E'; subst r''. split; [|exact C].
      rewrite <- L. destruct (Nat.ltb_spec (length (items q)) (rcap r)); rewrite app_length; simpl.
      * lia.
      * destruct (items q); simpl in *; lia.
  - intros a r' E. destruct (Nat.eq_dec (rcap r) 0) as [Z|Z].
    + exfalso. revert E. unfold push_front, full, decrement_front_and_back, normalize.
      replace (rsize r) with 0 by lia. rewrite Z. simpl. discriminate.
    + destruct (push_front_repr r _ a HR ltac:(lia)) as [r'' [E' [C [_ [L _]]]]].
      rewrite E in E'; inversion E'; subst r''. split; [|exact C].
      rewrite <- L. destruct (Nat.ltb_spec (length (items q)) (rcap r)); simpl.
      * lia.
      * unfold but_last; rewrite length_removelast. lia.
  - intros a r' E. destruct (items q) as [|x t] eqn:Eq.
    + exfalso. revert E. unfold pop_front, empty. simpl in H4. rewrite <- H4. simpl. discriminate.
    + destruct (pop_front_repr r x t HR) as [r'' [E' [C [_ [L _]]]]].
      rewrite E in E'; inversion E'; subst. simpl in H4. split; [lia|exact C].
  - intros a r' E. destruct (rev (items q)) as [|x t] eqn:Eq.
    + exfalso. revert E. unfold pop_back, empty. rewrite <- H4, <- rev_length, Eq. simpl. discriminate.
    + destruct (pop_back_repr r _ x t HR Eq) as [r'' [E' [C [_ [L _]]]]].
      rewrite E in E'; inversion E'; subst. split; [|exact C].
      unfold but_last in L; rewrite length_removelast in L.
      assert (0 < length (items q)) by (rewrite <- rev_length, Eq; simpl; lia). lia.
  - reflexivity.
  - unfold clear; simpl. exact H1.
  - intros m; split; reflexivity.
Qed.

Lemma iteration_lemma (d : A) n ops r outs :
  run d (ring_new d n) ops = Ok (r, outs) ->
  exists l, iterate r = Ok l /\ length l = size r /\ distance r = Z.of_nat (length l) /\
    forall i, i < size r -> exists a, nth_error l i = Some a /\ at_ r i = Ok a.
Proof.
  intros H. destruct (reach_sim d _ _ ops r outs (sim_new d n) H) as [q [HR HC]].
  exists (items q). split; [apply iterate_repr; exact HR|].
  assert (HL : length (items q) = size r) by (destruct HR as [_ [H4 _]]; exact H4).
  split; [exact HL|]. split; [unfold distance; rewrite HL; lia|].
  intros i Hi. destruct (at_repr r _ i HR ltac:(lia)) as [a [E N]]. eauto.
Qed.

(** No history reports NonFinite, and UB happens exactly on a disallowed call. *)
Lemma ub_iff_lemma (d : A) n ops :
  (run d (ring_new d n) ops = UB <-> drun (mkDeque n []) ops = None) /\
  run d (ring_new d n) ops <> NonFinite.
Proof.
  pose proof (run_sim d ops _ _ (sim_new d n)) as H.
  destruct (drun (mkDeque n []) ops) as [[q outs]|].
  - destruct H as [r [E _]]. rewrite E. split; [split; discriminate|discriminate].
  - rewrite H. split; [split; reflexivity|discriminate].
Qed.

Lemma pushes_never_ub_lemma (d : A) n (ops : list (op A)) : 0 < n ->
  (forall o, In o ops -> o <> PopFront /\ o <> PopBack /\ forall m, o <> Resize m) ->
  run d (ring_new d n) ops <> UB.
Proof.
  intros Hn Hops. rewrite (proj1 (ub_iff_lemma d n ops)).
  enough (forall l, drun (mkDeque n l) ops <> None) by auto.
  induction ops as [|o ops IH]; intros l; simpl; [discriminate|].
  assert (Ho : o <> PopFront /\ o <> PopBack /\ forall m, o <> Resize m) by (apply Hops; left; reflexivity).
  assert (IH' : forall l, drun (mkDeque n l) ops <> None)
    by (intros l'; apply IH; intros o' Hin; apply Hops; right; exact Hin).
  destruct o; simpl; try (destruct (Nat.eqb_spec n 0); [lia|]);
    try (destruct Ho as [H1 [H2 H3]]; congruence);
    try (match goal with |- context [drun (mkDeque n ?x) ops] =>
           specialize (IH' x); destruct (drun (mkDeque n x) ops) as [[? ?]|] end; congruence).
Qed.

End RingCorollaries.
