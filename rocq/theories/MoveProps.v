(** Property theorems C89-C91: object lifetimes of ring_buffer and fixed_ring_buffer. *)
From Verif Require Import Base BaseProofs RingModel RingSpec RingProofs MoveModel MoveSpec MoveProofs MoveProofs2.
Local Open Scope res_scope.

(** C89: any program that creates, moves, assigns, destroys and calls ring buffers
    as MoveSpec.hstep allows runs without UB, pops the specified values, and every
    object that holds a deque shows exactly its items. *)
Theorem C89_ring_buffers_are_independent_values :
  forall (A : Type) (d : A) (ks : list (cmd A)) (l : list (slot A)) (outs : list A),
  hrun hstep [] ks = Some (l, outs) ->
  exists w, exec (rb_step d) empty_world ks = Ok (w, outs) /\
    forall o q, nth_error l o = Some (Holds q) -> contents w o = Ok (items q).
Proof.
  intros A d ks l outs H.
  destruct (exec_inv (inv KV UV) (rb_step d) hstep (rb_step_ok d) ks empty_world [] l outs vinv_empty H) as [w [E I]].
  exists w. split; [exact E|]. intros o q Ho. eapply contents_ok; [exact I|]. unfold alive. rewrite Ho. reflexivity.
Qed.

(** C89: a moved-to object has the source's items, and the source is usable again
    after clear() or resize(). *)
Theorem C89_move_hands_over_and_source_recovers :
  forall (A : Type) (d : A) (ks : list (cmd A)) (l : list (slot A)) (outs : list A) (s : nat) (q : deque A) (m : nat) (v : A),
  hrun hstep [] ks = Some (l, outs) -> nth_error l s = Some (Holds q) -> 0 < m ->
  exists w, exec (rb_step d) empty_world (ks ++ [MoveNew s; Call s (Resize m); Call s (PushBack v)]) = Ok (w, outs) /\
    contents w (length l) = Ok (items q) /\ contents w s = Ok [v].
Proof.
  intros A d ks l outs s q m v H Hs Hm.
  assert (R : forall (ks : list (cmd A)) l0 l outs rest l2 outs2, hrun hstep l0 ks = Some (l, outs) -> hrun hstep l rest = Some (l2, outs2) ->
     hrun hstep l0 (ks ++ rest) = Some (l2, outs ++ outs2)).
  { clear. induction ks as [|k t IH]; intros l0 l outs rest l2 outs2 H1 H2; simpl in *.
    - injection H1 as <- <-. exact H2.
    - destruct (hstep l0 k) as [[l1 out]|]; [|discriminate].
      destruct (hrun hstep l1 t) as [[l3 outs3]|] eqn:E; [|discriminate]. injection H1 as <- <-.
      rewrite (IH _ _ _ _ _ _ E H2). destruct out; reflexivity. }
  pose proof (nth_lt _ _ _ Hs) as Ls.
  assert (H2 : hrun hstep l [MoveNew s; Call s (Resize m); Call s (PushBack v)]
             = Some (update l s (Holds (mkDeque m [v])) ++ [Holds q], [])).
  { cbn [hrun hstep]. unfold alive at 1. rewrite Hs.
    rewrite <- (update_app_old l (Holds q) s Unusable Ls).
    assert (A0 : nth_error (l ++ [Holds q]) s = Some (Holds q)) by (rewrite nth_error_app1 by exact Ls; exact Hs).
    unfold alive at 1. rewrite (nth_update_eq _ _ _ _ A0). rewrite update_update.
    unfold alive at 1. rewrite (nth_update_eq _ _ _ _ A0). cbn [dstep dcap items app length].
    destruct (Nat.eqb_spec m 0); [lia|]. destruct (Nat.ltb_spec 0 m); [|lia].
    rewrite update_update, update_app_old by exact Ls. reflexivity. }
  destruct (C89_ring_buffers_are_independent_values A d _ _ _ (R _ _ _ _ _ _ _ H H2)) as [w [E C]].
  rewrite app_nil_r in E. exists w. split; [exact E|]. split.
  - apply C. rewrite <- (update_length l s (Holds (mkDeque m [v]))). apply nth_app_new.
  - apply (C s (mkDeque m [v])). rewrite nth_error_app1 by (rewrite update_length; exact Ls).
    eapply nth_update_eq; eauto.
Qed.

Lemma stale_push {A} (r : ring A) x t v : repr r (x :: t) -> full r = true ->
  exists r', push_back r v = Ok r' /\ repr (mkRing (cells r') (rsize r) (rcap r) (rfront r)) (v :: t).
Proof.
  intros [[H1 [H2 H3]] [H4 H5]] F. unfold full in F. apply Nat.eqb_eq in F. cbn [length] in H4.
  assert (Hc : 0 < rcap r) by lia. assert (Hf : rfront r < rcap r) by lia.
  assert (IX : ((rfront r + 1) mod rcap r + rsize r - 1) mod rcap r = rfront r).
  { rewrite F. destruct (Nat.eq_dec (rfront r + 1) (rcap r)) as [E|E].
    - rewrite E, Nat.mod_same by lia. rewrite Nat.mod_small by lia. lia.
    - rewrite (Nat.mod_small (rfront r + 1)) by lia. replace (rfront r + 1 + rcap r - 1) with (rfront r + 1 * rcap r) by lia.
      rewrite Nat.mod_add by lia. apply Nat.mod_small; lia. }
  unfold push_back, full. rewrite (proj2 (Nat.eqb_eq _ _) F). unfold increment_front_and_back, normalize.
  destruct (Nat.eqb_spec (rcap r) 0); [lia|]. cbn [bind]. unfold set_back_, normalize. cbn [rcap rfront rsize cells].
  destruct (Nat.eqb_spec (rcap r) 0); [lia|]. cbn [bind]. rewrite IX. rewrite store_update by lia. cbn [bind].
  eexists. split; [reflexivity|]. cbn [cells]. split.
  - split; [cbn; rewrite update_length; exact H1|]. split; [exact H2|exact H3].
  - split; [exact H4|]. cbn [rsize rcap rfront cells]. intros i Hi. rewrite nth_update.
    destruct (Nat.eqb_spec ((rfront r + i) mod rcap r) (rfront r)) as [E|E].
    + assert (i = 0).
      { destruct (Nat.eq_dec i 0); [auto|]. exfalso.
        apply (mod_neq (rcap r) (rfront r) i 0); try lia. rewrite E, Nat.add_0_r, Nat.mod_small by lia. reflexivity. }
      subst i. rewrite E. rewrite Nat.add_0_r in E.
      destruct (nth_error (cells r) (rfront r)) eqn:N; [reflexivity|]. apply nth_error_None in N. lia.
    + destruct i as [|i]; [rewrite Nat.add_0_r, Nat.mod_small in E by lia; congruence|]. rewrite H5 by exact Hi. reflexivity.
Qed.

Lemma exec_app {A} st (ks rest : list (cmd A)) : forall w w1 outs w2 outs2,
  exec st w ks = Ok (w1, outs) -> exec st w1 rest = Ok (w2, outs2) -> exec st w (ks ++ rest) = Ok (w2, outs ++ outs2).
Proof.
  induction ks as [|k t IH]; intros w w1 outs w2 outs2 H1 H2; simpl in *.
  - injection H1 as <- <-. exact H2.
  - destruct (st w k) as [[wa out]| |]; simpl in *; try discriminate.
    destruct (exec st wa t) as [[wb outs3]| |] eqn:E; simpl in *; try discriminate. injection H1 as <- <-.
    rewrite (IH _ _ _ _ _ E H2). simpl. destruct out; reflexivity.
Qed.

(** C90 is violated: a moved-from ring_buffer still writes into the storage it gave
    away.  In every reachable state, moving from a full buffer [x :: t] and then
    pushing [v] on the moved-from object is accepted and turns the new owner's
    oldest element into [v]. *)
Theorem C90_moved_from_object_interferes_refuted :
  forall (A : Type) (d : A) (ks : list (cmd A)) (l : list (slot A)) (outs : list A) (s : nat) (n : nat) (x : A) (t : list A) (v : A),
  hrun hstep [] ks = Some (l, outs) -> nth_error l s = Some (Holds (mkDeque n (x :: t))) -> n = length (x :: t) ->
  exists w1 w2,
    exec (rb_step d) empty_world (ks ++ [MoveNew s]) = Ok (w1, outs) /\
    contents w1 (length l) = Ok (x :: t) /\
    exec (rb_step d) empty_world (ks ++ [MoveNew s; Call s (PushBack v)]) = Ok (w2, outs) /\
    contents w2 (length l) = Ok (v :: t).
Proof.
  intros A d ks l outs s n x t v H Hs Hn.
  destruct (exec_inv (inv KV UV) (rb_step d) hstep (rb_step_ok d) ks empty_world [] l outs vinv_empty H) as [w [E I]].
  assert (Ha : alive l s = Some (Holds (mkDeque n (x :: t)))) by (unfold alive; rewrite Hs; reflexivity).
  destruct (alive_inv _ _ _ _ _ _ I Ha) as [_ [_ [b [Ho [Hg [c [Hb [_ [Hbase Hsim]]]]]]]]].
  pose proof (nth_lt _ _ _ Ho) as Lo. destruct I as [L _].
  destruct (own b) as [a|] eqn:Hown.
  2:{ simpl in Hb. injection Hb as <-. destruct Hsim as [[[W _] _] C]. simpl in W, C, Hn. lia. }
  destruct (get_block_lt _ _ _ Hb) as [Ga La].
  assert (F : full (ring_of b c) = true).
  { destruct Hsim as [[_ [S _]] C]. cbn [dcap items] in S, C. unfold full. apply Nat.eqb_eq. rewrite C, <- S. symmetry; exact Hn. }
  destruct (stale_push _ x t v (proj1 Hsim) F) as [r' [EP RP]].
  set (nb := mkObj (Some a) (span_ b)). set (ob := mkObj None (span_ b)).
  set (w1 := mkWorld (blocks w) (update (objs w) s (Some ob) ++ [Some nb])).
  assert (EM : exec (rb_step d) w [MoveNew s] = Ok (w1, [])).
  { cbn [exec rb_step]. unfold rb_move. rewrite Hg. cbn [bind]. unfold set_obj. rewrite store_update by exact Lo.
    cbn [bind fst snd]. unfold add_obj. cbn [objs blocks]. rewrite Hown. reflexivity. }
  assert (Ls : length l = length (update (objs w) s (Some ob))) by (rewrite update_length; auto).
  assert (LEN1 : s < length (update (objs w) s (Some ob) ++ [Some nb])) by (rewrite app_length, update_length; lia).
  exists w1.
  set (sp' := mkSpan (Some a) (rsize r') (rcap r') (rfront r')).
  exists (mkWorld (update (blocks w) a (Some (cells r'))) (update (update (objs w) s (Some ob) ++ [Some nb]) s (Some (mkObj None sp')))).
  split; [rewrite <- (app_nil_r outs); eapply exec_app; eauto|]. split.
  { unfold contents, get_obj, load. unfold w1. cbn [objs]. rewrite Ls, nth_app_new. cbn [bind].
    unfold view. cbn [span_ nb]. rewrite Hbase. cbn [get_block blocks]. unfold load. rewrite Ga. cbn [bind].
    apply iterate_repr. exact (proj1 Hsim). }
  split.
  { rewrite <- (app_nil_r outs). eapply exec_app; [exact E|].
    change [MoveNew s; Call s (PushBack v)] with ([MoveNew s] ++ [Call s (PushBack v)]).
    rewrite <- (app_nil_r (@nil A)). eapply exec_app; [exact EM|].
    cbn [exec rb_step]. unfold ring_call, get_obj, load. unfold w1 at 1. cbn [objs].
    rewrite nth_error_app1 by (rewrite update_length; exact Lo). rewrite (nth_update_eq _ _ _ _ Ho). cbn [bind].
    unfold view. cbn [span_ ob]. rewrite Hbase. unfold get_block, load. unfold w1 at 1. cbn [blocks]. rewrite Ga. cbn [bind].
    unfold ring_of in EP. cbn [step]. rewrite EP. cbn [bind fst snd]. unfold set_block. unfold w1 at 1. cbn [blocks].
    rewrite store_update by exact La. cbn [bind]. unfold set_obj. unfold w1. cbn [objs blocks own ob].
    rewrite store_update by exact LEN1. cbn [bind fst snd]. reflexivity. }
  unfold contents, get_obj, load. cbn [objs].
  rewrite nth_update_neq by lia. rewrite Ls, nth_app_new. cbn [bind]. unfold view. cbn [span_ nb]. rewrite Hbase.
  cbn [get_block blocks]. unfold load. rewrite (nth_update_eq _ _ _ _ Ga). cbn [bind].
  apply iterate_repr. exact RP.
Qed.

(** C91: without moves, any number of fixed_ring_buffer objects behave as
    independent bounded deques of capacity N. *)
Definition is_move {A} (k : cmd A) : bool := match k with MoveNew _ | MoveAssign _ _ => true | _ => false end.

Theorem C91_fixed_ring_buffers_partial :
  forall (A : Type) (d : A) (n : nat) (ks : list (cmd A)) (l : list (slot A)) (outs : list A),
  forallb (fun k => negb (is_move k)) ks = true ->
  hrun (fixed_hstep n) [] ks = Some (l, outs) ->
  exists w, exec (fx_step d n) empty_world ks = Ok (w, outs) /\
    forall o q, nth_error l o = Some (Holds q) -> contents w o = Ok (items q).
Proof.
  intros A d n ks l outs HM H.
  assert (H' : hrun (fixed_actual_hstep n) [] ks = Some (l, outs)).
  { rewrite <- H. clear H l outs. generalize (@nil (slot A)). induction ks as [|k t IH]; intros l; [reflexivity|].
    cbn [forallb] in HM. apply andb_prop in HM. destruct HM as [M1 M2].
    assert (E : fixed_actual_hstep n l k = fixed_hstep n l k) by (destruct k; try discriminate M1; reflexivity).
    cbn [hrun]. rewrite E. destruct (fixed_hstep n l k) as [[l' out]|]; [|reflexivity]. rewrite IH by exact M2. reflexivity. }
  destruct (exec_inv (inv (KF n) UF) (fx_step d n) (fixed_actual_hstep n) (fx_step_ok n d) ks empty_world [] l outs (finv_empty n) H') as [w [E I]].
  exists w. split; [exact E|]. intros o q Ho. eapply contents_ok; [exact I|]. unfold alive. rewrite Ho. reflexivity.
Qed.

(** C91 is violated by moves: the moved-to object reads the storage of the source,
    so once the source is destroyed every use of it is undefined, for every
    capacity and every stored value. *)
Theorem C91_moved_fixed_ring_refuted :
  forall (A : Type) (d a : A) (n : nat), 0 < n ->
  let ks := [NewDefault; Call 0 (PushBack a); MoveNew 0; Destroy 0] in
  hrun (fixed_hstep n) [] ks = Some ([Dead; Holds (mkDeque n [a])], []) /\
  hrun (fixed_hstep n) [] (ks ++ [Call 1 PopFront]) = Some ([Dead; Holds (mkDeque n [])], [a]) /\
  exec (fx_step d n) empty_world (ks ++ [Call 1 PopFront]) = UB /\
  exists w, exec (fx_step d n) empty_world ks = Ok (w, []) /\ contents w 1 = UB.
Proof.
  intros A d a n Hn ks. destruct n as [|n]; [lia|].
  assert (S1 : dstep (mkDeque (S n) []) (PushBack a) = Some (mkDeque (S n) [a], None)) by reflexivity.
  split; [reflexivity|]. split; [reflexivity|].
  assert (P : push_back (ring_new d (S n)) a = Ok (mkRing (a :: repeat d n) 1 (S n) 0)).
  { unfold push_back, ring_new, full. cbn [rsize rcap]. cbn [Nat.eqb]. unfold increment_back. cbn [bind rsize rcap rfront cells].
    unfold set_back_, normalize. cbn [rcap rfront rsize Nat.eqb bind]. replace (0 + (0 + 1) - 1) with 0 by lia.
    rewrite Nat.mod_0_l by lia. reflexivity. }
  unfold ring_new in P.
  set (w := mkWorld [None; Some (a :: repeat d n)] [None; Some (mkObj (Some 1) (mkSpan (Some 0) 1 (S n) 0))]).
  assert (E : exec (fx_step d (S n)) empty_world ks = Ok (w, [])).
  { unfold ks. cbn [exec fx_step]. unfold fx_new, add_obj, add_block, empty_world. cbn [blocks objs app length bind fst snd].
    unfold ring_call, get_obj, load. cbn [objs nth_error bind]. unfold view. cbn [span_ base ssize scap sfront get_block blocks].
    unfold load. cbn [nth_error bind step]. rewrite P. cbn [bind fst snd set_block store rmap]. reflexivity. }
  split.
  - unfold ks in *. cbn [app exec] in *.
    destruct (fx_step d (S n) empty_world NewDefault) as [[w1 o1]| |]; cbn [bind fst snd] in *; try discriminate.
    destruct (fx_step d (S n) w1 (Call 0 (PushBack a))) as [[w2 o2]| |]; cbn [bind fst snd] in *; try discriminate.
    destruct (fx_step d (S n) w2 (MoveNew 0)) as [[w3 o3]| |]; cbn [bind fst snd] in *; try discriminate.
    destruct (fx_step d (S n) w3 (Destroy 0)) as [[w4 o4]| |]; cbn [bind fst snd] in *; try discriminate.
    injection E as -> _. reflexivity.
  - exists w. split; [exact E|]. reflexivity.
Qed.

(** C91, what the code does offer: the source of a move keeps its value and the
    target is unusable until clear(); every program that respects this behaves as
    specified by MoveSpec.fixed_actual_hstep. *)
Theorem C91_fixed_ring_buffers_actual :
  forall (A : Type) (d : A) (n : nat) (ks : list (cmd A)) (l : list (slot A)) (outs : list A),
  hrun (fixed_actual_hstep n) [] ks = Some (l, outs) ->
  exists w, exec (fx_step d n) empty_world ks = Ok (w, outs) /\
    forall o q, nth_error l o = Some (Holds q) -> contents w o = Ok (items q).
Proof.
  intros A d n ks l outs H.
  destruct (exec_inv (inv (KF n) UF) (fx_step d n) (fixed_actual_hstep n) (fx_step_ok n d) ks empty_world [] l outs (finv_empty n) H) as [w [E I]].
  exists w. split; [exact E|]. intros o q Ho. eapply contents_ok; [exact I|]. unfold alive. rewrite Ho. reflexivity.
Qed.

(** Non-vacuity. *)
Definition demo : list (cmd nat) :=
  [New 2; NewFilled 1 7; Call 0 (PushBack 1); Call 0 (PushBack 2); Call 0 (PushBack 3); MoveNew 0; Call 2 PopFront;
   Call 0 (Resize 3); Call 0 (PushFront 9); MoveAssign 1 2; Destroy 2; Call 1 (PushBack 4)].
Example demo_spec : hrun hstep [] demo = Some ([Holds (mkDeque 3 [9]); Holds (mkDeque 2 [3; 4]); Dead], [2]).
Proof. reflexivity. Qed.
Example demo_full : exists l outs, hrun hstep [] [New 2; Call 0 (PushBack 1); Call 0 (PushBack 2)] = Some (l, outs) /\
  nth_error l 0 = Some (Holds (mkDeque 2 [1; 2])).
Proof. do 2 eexists. split; reflexivity. Qed.
Example demo_fixed : hrun (fixed_hstep 2) [] [NewDefault; NewDefault; Call 0 (PushBack 1); Call 1 (PushBack 2); Call 0 Clear; Destroy 1]
  = Some ([Holds (mkDeque 2 (@nil nat)); Dead], []).
Proof. reflexivity. Qed.
Example demo_fixed_actual : hrun (fixed_actual_hstep 2) [] [NewDefault; Call 0 (PushBack 1); MoveNew 0; Call 1 Clear; Call 1 (PushBack 5); Call 0 (PushBack 2)]
  = Some ([Holds (mkDeque 2 [1; 2]); Holds (mkDeque 2 [5])], []).
Proof. reflexivity. Qed.
Print Assumptions C89_ring_buffers_are_independent_values.
Print Assumptions C89_move_hands_over_and_source_recovers.
Print Assumptions C90_moved_from_object_interferes_refuted.
Print Assumptions C91_fixed_ring_buffers_partial.
Print Assumptions C91_moved_fixed_ring_refuted.
Print Assumptions C91_fixed_ring_buffers_actual.
