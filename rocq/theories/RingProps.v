(** Property theorems C01-C04 about ring_buffer. *)
From Verif Require Import Base RingModel RingSpec RingProofs.

(** C01: every history of calls on a new ring buffer behaves like the bounded
    deque of RingSpec.v: same popped values, same contents seen by iteration,
    same front and back; a call the deque disallows is UB. *)
Theorem C01_ring_refines_deque :
  forall (A : Type) (d : A) (n : nat) (ops : list (op A)),
  match drun (mkDeque n []) ops with
  | Some (q, outs) =>
      exists r, run d (ring_new d n) ops = Ok (r, outs) /\
        iterate r = Ok (items q) /\
        (forall a t, items q = a :: t -> front r = Ok a) /\
        (forall a t, items q = t ++ [a] -> back r = Ok a)
  | None => run d (ring_new d n) ops = UB
  end.
Proof. intros A d n ops. exact (ring_refines_deque_lemma d _ _ ops (sim_new d n)). Qed.

(** C01, for the [ring_buffer(N, value)] constructor. *)
Theorem C01_filled_ring_refines_deque :
  forall (A : Type) (d v : A) (n : nat) (ops : list (op A)),
  match drun (mkDeque n (repeat v n)) ops with
  | Some (q, outs) =>
      exists r, run d (ring_filled v n) ops = Ok (r, outs) /\
        iterate r = Ok (items q) /\
        (forall a t, items q = a :: t -> front r = Ok a) /\
        (forall a t, items q = t ++ [a] -> back r = Ok a)
  | None => run d (ring_filled v n) ops = UB
  end.
Proof. intros A d v n ops. exact (ring_refines_deque_lemma d _ _ ops (sim_filled v n)). Qed.

(** C01: the last element of an empty buffer does not exist. *)
Theorem C01_back_of_empty :
  forall (A : Type) (d : A) (n : nat) (ops : list (op A)) q outs r,
  drun (mkDeque n []) ops = Some (q, outs) -> run d (ring_new d n) ops = Ok (r, outs) -> items q = [] -> back r = UB.
Proof.
  intros A d n ops q outs r D E I. pose proof (run_sim d ops _ _ (sim_new d n)) as H. rewrite D in H. destruct H as [r' [E' [[_ [L _]] _]]].
  rewrite E in E'. injection E' as <-. rewrite I in L. unfold back. rewrite <- L. reflexivity.
Qed.

(** C01: pushing any stream leaves exactly the last [n] elements, oldest first. *)
Theorem C01_ring_keeps_last_n :
  forall (A : Type) (d : A) (n : nat) (xs : list A), 0 < n ->
  exists r, run d (ring_new d n) (map PushBack xs) = Ok (r, []) /\
    iterate r = Ok (skipn (length xs - n) xs).
Proof. intros A. exact keeps_last_lemma. Qed.

(** C01: values that fit come back in first-in first-out order. *)
Theorem C01_ring_fifo :
  forall (A : Type) (d : A) (n : nat) (xs : list A), length xs <= n ->
  exists r, run d (ring_new d n) (map PushBack xs ++ repeat PopFront (length xs)) = Ok (r, xs) /\
    size r = 0.
Proof. intros A. exact fifo_lemma. Qed.

(** C02: size and capacity laws in every reachable state. *)
Theorem C02_ring_size_laws :
  forall (A : Type) (d : A) (n : nat) (ops : list (op A)) (r : ring A) (outs : list A),
  run d (ring_new d n) ops = Ok (r, outs) ->
  size r <= capacity r /\
  (empty r = true <-> size r = 0) /\
  (full r = true <-> size r = capacity r) /\
  (forall a r', push_back r a = Ok r' ->
     size r' = Nat.min (size r + 1) (capacity r) /\ capacity r' = capacity r) /\
  (forall a r', push_front r a = Ok r' ->
     size r' = Nat.min (size r + 1) (capacity r) /\ capacity r' = capacity r) /\
  (forall a r', pop_front r = Ok (r', a) -> size r = size r' + 1 /\ capacity r' = capacity r) /\
  (forall a r', pop_back r = Ok (r', a) -> size r = size r' + 1 /\ capacity r' = capacity r) /\
  size (clear r) = 0 /\ capacity (clear r) = capacity r /\
  (forall m, size (resize d r m) = 0 /\ capacity (resize d r m) = m).
Proof. intros A. exact size_laws_lemma. Qed.

(** C03: iteration visits exactly size() elements, the i-th being element i. *)
Theorem C03_ring_iteration :
  forall (A : Type) (d : A) (n : nat) (ops : list (op A)) (r : ring A) (outs : list A),
  run d (ring_new d n) ops = Ok (r, outs) ->
  exists l, iterate r = Ok l /\ length l = size r /\ distance r = Z.of_nat (length l) /\
    forall i, i < size r -> exists a, nth_error l i = Some a /\ at_ r i = Ok a.
Proof. intros A. exact iteration_lemma. Qed.

(** C04: a history is UB exactly when the deque disallows one of its calls: a pop
    on an empty buffer or a push on a buffer of capacity zero. *)
Theorem C04_ring_ub_iff_disallowed :
  forall (A : Type) (d : A) (n : nat) (ops : list (op A)),
  (run d (ring_new d n) ops = UB <-> drun (mkDeque n []) ops = None) /\
  run d (ring_new d n) ops <> NonFinite.
Proof. intros A. exact ub_iff_lemma. Qed.

(** C04: pushes and clears never leave the storage of a buffer of positive capacity. *)
Theorem C04_ring_pushes_in_bounds :
  forall (A : Type) (d : A) (n : nat) (ops : list (op A)), 0 < n ->
  (forall o, In o ops -> o <> PopFront /\ o <> PopBack /\ forall m, o <> Resize m) ->
  run d (ring_new d n) ops <> UB.
Proof. intros A. exact pushes_never_ub_lemma. Qed.

(** Non-vacuity: a history of nine calls that wraps around twice. *)
Definition demo_ops : list (op nat) :=
  [PushBack 1; PushBack 2; PushBack 3; PushBack 4; PopFront; PushFront 9; PushFront 8; PopBack; PushBack 7].
Example demo_deque : drun (mkDeque 3 []) demo_ops = Some (mkDeque 3 [8; 9; 7], [2; 3]).
Proof. reflexivity. Qed.
Example demo_ring :
  run 0 (ring_new 0 3) demo_ops = Ok (mkRing [8; 9; 7] 3 3 0, [2; 3]) /\
  iterate (mkRing [8; 9; 7] 3 3 0) = Ok [8; 9; 7].
Proof. split; reflexivity. Qed.
Example demo_filled : drun (mkDeque 2 (repeat 0 2)) [PushBack 5; PushFront 6] = Some (mkDeque 2 [6; 0], []).
Proof. reflexivity. Qed.
Example demo_ub_pop : drun (mkDeque 3 []) [PushBack 1; PopFront; @PopFront nat] = None.
Proof. reflexivity. Qed.
Example demo_ub_zero : run 0 (ring_new 0 0) [PushBack 1] = UB.
Proof. reflexivity. Qed.
Example demo_inbounds : forall o, In o [PushBack 1; PushFront 2; Clear] -> o <> PopFront /\ o <> PopBack /\ forall m, o <> Resize m.
Proof. simpl; intros o [<-|[<-|[<-|[]]]]; repeat split; discriminate. Qed.
Print Assumptions C01_ring_refines_deque.
Print Assumptions C01_filled_ring_refines_deque.
Print Assumptions C01_back_of_empty.
Print Assumptions C01_ring_keeps_last_n.
Print Assumptions C01_ring_fifo.
Print Assumptions C02_ring_size_laws.
Print Assumptions C03_ring_iteration.
Print Assumptions C04_ring_ub_iff_disallowed.
Print Assumptions C04_ring_pushes_in_bounds.
