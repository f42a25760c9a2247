(** Model of nonstd::ring_span and edsp::ring_buffer / fixed_ring_buffer.
    Simplifications: [size_t] is [nat] (a capacity is below 2^63, so none of the
    sums below wraps); moving an element out of a cell leaves the cell's value
    unchanged (true of every arithmetic sample type). *)
From Verif Require Import Base.
Local Open Scope res_scope.

Section Ring.
Context {A : Type}.

(** thirdparty/nonstd/ring_span.hpp:640-643 m_data (with the storage it points to,
    types/ring_buffer.hpp:471), m_size, m_capacity, m_front_idx. *)
Record ring : Type := mkRing {
  cells : list A;
  rsize : nat;
  rcap  : nat;
  rfront : nat }.

(** ring_span.hpp:353-358, ring_buffer.hpp:78-81: [ring_buffer(N)]: N value
    initialised cells ([d]), empty ring. *)
Definition ring_new (d : A) (n : nat) : ring := mkRing (repeat d n) 0 n 0.

(** ring_buffer.hpp:89-93 + ring_span.hpp:361-366: [ring_buffer(N,value)]: a full
    ring, every element then overwritten with [v] by [std::fill(begin,end)]. *)
Definition ring_filled (v : A) (n : nat) : ring := mkRing (repeat v n) n n 0.

(** ring_span.hpp:381-395. *)
Definition empty (r : ring) : bool := rsize r =? 0.
Definition full (r : ring) : bool := rsize r =? rcap r.
Definition size (r : ring) : nat := rsize r.
Definition capacity (r : ring) : nat := rcap r.

(** ring_span.hpp:585-587: [idx % m_capacity]; remainder by zero is UB. *)
Definition normalize (r : ring) (idx : nat) : res nat :=
  if rcap r =? 0 then UB else Ok (idx mod rcap r).

(** ring_span.hpp:589-595. *)
Definition at_ (r : ring) (idx : nat) : res A :=
  i <- normalize r (rfront r + idx) ;; load (cells r) i.

(** ring_span.hpp:399-405: [*begin()].  The call is documented for non-empty
    buffers only, but it is not checked: on an empty buffer of positive capacity
    it reads the stale cell under the front index. *)
Definition front (r : ring) : res A := at_ r 0.

(** ring_span.hpp:407-413: [*(--end())]; on an empty ring the iterator index wraps
    below zero: outside the contract, UB here. *)
Definition back (r : ring) : res A :=
  if rsize r =? 0 then UB else at_ r (rsize r - 1).

(** ring_span.hpp:597-611 as write targets. *)
Definition set_front_ (r : ring) (v : A) : res ring :=
  cs <- store (cells r) (rfront r) v ;; Ok (mkRing cs (rsize r) (rcap r) (rfront r)).
Definition set_back_ (r : ring) (v : A) : res ring :=
  i <- normalize r (rfront r + rsize r - 1) ;;
  cs <- store (cells r) i v ;; Ok (mkRing cs (rsize r) (rcap r) (rfront r)).
Definition get_front_ (r : ring) : res A := load (cells r) (rfront r).
Definition get_back_ (r : ring) : res A :=
  i <- normalize r (rfront r + rsize r - 1) ;; load (cells r) i.

(** ring_span.hpp:613-637. *)
Definition increment_front (r : ring) : res ring :=
  f <- normalize r (rfront r + 1) ;; Ok (mkRing (cells r) (rsize r - 1) (rcap r) f).
Definition decrement_front (r : ring) : res ring :=
  f <- normalize r (rfront r + rcap r - 1) ;; Ok (mkRing (cells r) (rsize r + 1) (rcap r) f).
Definition increment_back (r : ring) : res ring :=
  Ok (mkRing (cells r) (rsize r + 1) (rcap r) (rfront r)).
Definition decrement_back (r : ring) : res ring :=
  Ok (mkRing (cells r) (rsize r - 1) (rcap r) (rfront r)).
Definition increment_front_and_back (r : ring) : res ring :=
  f <- normalize r (rfront r + 1) ;; Ok (mkRing (cells r) (rsize r) (rcap r) f).
Definition decrement_front_and_back (r : ring) : res ring :=
  f <- normalize r (rfront r + rcap r - 1) ;; Ok (mkRing (cells r) (rsize r) (rcap r) f).

(** ring_span.hpp:492-525 (copy, move and emplace forms), ring_buffer.hpp:412-426. *)
Definition push_back (r : ring) (v : A) : res ring :=
  r' <- (if full r then increment_front_and_back r else increment_back r) ;;
  set_back_ r' v.

(** ring_span.hpp:532-565, ring_buffer.hpp:400-402. *)
Definition push_front (r : ring) (v : A) : res ring :=
  r' <- (if full r then decrement_front_and_back r else decrement_front r) ;;
  set_front_ r' v.

(** ring_span.hpp:470-477, ring_buffer.hpp:437-439; [assert(!empty())]. *)
Definition pop_front (r : ring) : res (ring * A) :=
  if empty r then UB
  else a <- get_front_ r ;; r' <- increment_front r ;; Ok (r', a).

(** ring_span.hpp:480-487, ring_buffer.hpp:450-452; [assert(!empty())]. *)
Definition pop_back (r : ring) : res (ring * A) :=
  if empty r then UB
  else a <- get_back_ r ;; r' <- decrement_back r ;; Ok (r', a).

(** ring_buffer.hpp:120-122: the storage is kept. *)
Definition clear (r : ring) : ring := mkRing (cells r) 0 (length (cells r)) 0.

(** ring_buffer.hpp:109-112: [vector::resize] keeps a prefix and value-initialises
    ([d]) new cells; the ring is rebuilt empty. *)
Definition resize (d : A) (r : ring) (n : nat) : ring :=
  mkRing (firstn n (cells r) ++ repeat d (n - length (cells r))) 0 n 0.

(** Iteration [for (it = begin(); it != end(); ++it) *it]:
    ring_span.hpp:417-439, 697-706, 760-771.  [k] is the number of increments left
    before the index equals that of [end()], which is [size()]. *)
Fixpoint iterate_from (r : ring) (idx k : nat) : res (list A) :=
  match k with
  | O => Ok []
  | S k' => a <- at_ r idx ;; rmap (cons a) (iterate_from r (idx + 1) k')
  end.
Definition iterate (r : ring) : res (list A) := iterate_from r 0 (size r).

(** ring_span.hpp:746-749: [end() - begin()]. *)
Definition distance (r : ring) : Z := (Z.of_nat (size r) - Z.of_nat 0)%Z.

(** The API calls of ring_buffer that change it. *)
Inductive op : Type :=
| PushBack (a : A)      (* push_back / emplace_back *)
| PushFront (a : A)     (* emplace_front *)
| PopFront
| PopBack
| Clear
| Resize (n : nat).

Definition step (d : A) (r : ring) (o : op) : res (ring * option A) :=
  match o with
  | PushBack a => r' <- push_back r a ;; Ok (r', None)
  | PushFront a => r' <- push_front r a ;; Ok (r', None)
  | PopFront => p <- pop_front r ;; Ok (fst p, Some (snd p))
  | PopBack => p <- pop_back r ;; Ok (fst p, Some (snd p))
  | Clear => Ok (clear r, None)
  | Resize n => Ok (resize d r n, None)
  end.

(** A history: the final ring together with the popped values, oldest first. *)
Fixpoint run (d : A) (r : ring) (ops : list op) : res (ring * list A) :=
  match ops with
  | [] => Ok (r, [])
  | o :: t =>
      p <- step d r o ;;
      q <- run d (fst p) t ;;
      Ok (fst q, match snd p with Some a => a :: snd q | None => snd q end)
  end.

End Ring.
Arguments ring A : clear implicits.
Arguments op A : clear implicits.
