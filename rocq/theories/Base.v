(** Shared vocabulary of the model: the outcome of a C++ call. *)
From Coq Require Export List Arith ZArith Lia Bool.
Export ListNotations.

(** Outcome of executing a piece of C++:
    - [Ok v]      : it completes with value [v];
    - [UB]        : undefined behaviour (out-of-range access, integer division by
                    zero, signed overflow, dereferencing an end iterator) or a
                    violated [assert]/[meta::expects]/[meta::ensure]
                    (include/edsp/meta/expects.hpp:34-43, ensure.hpp:34-44);
    - [NonFinite] : an IEEE operation whose result is an infinity or a NaN and
                    which therefore has no counterpart in the exact-real model. *)
Inductive res (A : Type) : Type :=
| Ok (a : A)
| UB
| NonFinite.
Arguments Ok {A} a.
Arguments UB {A}.
Arguments NonFinite {A}.

Definition bind {A B : Type} (x : res A) (f : A -> res B) : res B :=
  match x with
  | Ok a => f a
  | UB => UB
  | NonFinite => NonFinite
  end.

Definition rmap {A B : Type} (f : A -> B) (x : res A) : res B := bind x (fun a => Ok (f a)).

Declare Scope res_scope.
Delimit Scope res_scope with res.
Notation "x <- e ;; k" := (bind e (fun x => k))
  (at level 61, e at next level, right associativity) : res_scope.
Notation "' p <- e ;; k" := (bind e (fun x => match x with p => k end))
  (at level 61, p pattern, e at next level, right associativity) : res_scope.

(** Reading and writing cell [i] of a contiguous storage: out of range is UB. *)
Definition load {A : Type} (l : list A) (i : nat) : res A :=
  match nth_error l i with
  | Some a => Ok a
  | None => UB
  end.

Fixpoint store {A : Type} (l : list A) (i : nat) (v : A) : res (list A) :=
  match l, i with
  | [], _ => UB
  | _ :: t, O => Ok (v :: t)
  | x :: t, S j => rmap (cons x) (store t j v)
  end.

(** Run a partial function over a list, left to right. *)
Fixpoint mapM {A B : Type} (f : A -> res B) (l : list A) : res (list B) :=
  match l with
  | [] => Ok []
  | x :: t => bind (f x) (fun y => rmap (cons y) (mapM f t))
  end.
