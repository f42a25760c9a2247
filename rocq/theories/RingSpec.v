(** Independent specification: a bounded deque is a list with a capacity. *)
From Coq Require Import List Arith.
Import ListNotations.
From Verif Require Import RingModel.

Section Deque.
Context {A : Type}.

Record deque : Type := mkDeque { dcap : nat; items : list A }.

(** The list without its last element. *)
Definition but_last (l : list A) : list A := removelast l.

(** What each call means.  [None]: the call is not allowed in this state. *)
Definition dstep (q : deque) (o : op A) : option (deque * option A) :=
  match o with
  | PushBack a =>
      if dcap q =? 0 then None
      else Some (mkDeque (dcap q)
                   (if length (items q) <? dcap q then items q ++ [a]
                    else tl (items q) ++ [a]), None)
  | PushFront a =>
      if dcap q =? 0 then None
      else Some (mkDeque (dcap q)
                   (if length (items q) <? dcap q then a :: items q
                    else a :: but_last (items q)), None)
  | PopFront =>
      match items q with
      | [] => None
      | a :: t => Some (mkDeque (dcap q) t, Some a)
      end
  | PopBack =>
      match rev (items q) with
      | [] => None
      | a :: _ => Some (mkDeque (dcap q) (but_last (items q)), Some a)
      end
  | Clear => Some (mkDeque (dcap q) [], None)
  | Resize n => Some (mkDeque n [], None)
  end.

Fixpoint drun (q : deque) (ops : list (op A)) : option (deque * list A) :=
  match ops with
  | [] => Some (q, [])
  | o :: t =>
      match dstep q o with
      | None => None
      | Some (q', out) =>
          match drun q' t with
          | None => None
          | Some (q'', outs) =>
              Some (q'', match out with Some a => a :: outs | None => outs end)
          end
      end
  end.
End Deque.
Arguments deque A : clear implicits.
