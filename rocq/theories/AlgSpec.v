(** Specification vocabulary for the algorithms: ranges of memory and what a write does. *)
From Coq Require Import Sorting.Sorted.
From Verif Require Import RealBase.
Local Open Scope R_scope.

(** The range [a, a+n) of a memory. *)
Definition slice {A} (mem : list A) (a n : nat) : list A := firstn n (skipn a mem).
Definition in_range {A} (mem : list A) (a n : nat) : Prop := (a + n <= length mem)%nat.
(** The memory after writing [out] at offset [d] and nothing else. *)
Definition written {A} (mem : list A) (d : nat) (out : list A) : list A :=
  firstn d mem ++ out ++ skipn (d + length out) mem.
(** Destination equal to or before the source, or after its end. *)
Definition no_clobber (first d n : nat) : Prop := (d <= first \/ first + n <= d)%nat.

Definition is_integer (x : R) : Prop := exists k : Z, x = IZR k.
Definition within (lo hi x : R) : Prop := lo <= x <= hi.

(** Occurrence at a position, and nowhere before it. *)
Definition first_at {A} (l : list A) (v : A) (i : nat) : Prop :=
  nth_error l i = Some v /\ forall j, (j < i)%nat -> nth_error l j <> Some v.

(** The destination [d, d+n) holds, position by position, values related to the source values by
    [P]; every other cell keeps its content. *)
Definition elementwise (P : R -> R -> Prop) (mem : list R) (first n d : nat) (mem' : list R) : Prop :=
  length mem' = length mem /\
  (forall i x, (i < n)%nat -> nth_error mem (first + i) = Some x -> exists y, nth_error mem' (d + i) = Some y /\ P x y) /\
  (forall j, (j < d \/ d + n <= j)%nat -> nth_error mem' j = nth_error mem j).

(** A legal call: source and destination inside the memory, and the destination not overwriting
    source elements before they are read (in-place use is legal). *)
Definition legal (mem : list R) (first n d : nat) : Prop :=
  in_range mem first n /\ in_range mem d n /\ no_clobber first d n.

(** [==] is equality and [<] is the strict part of a total order. *)
Definition total_order {A} (eqb ltb : A -> A -> bool) (le : A -> A -> Prop) : Prop :=
  (forall x y, eqb x y = true <-> x = y) /\ (forall x y, ltb x y = true <-> (le x y /\ x <> y)) /\
  (forall x, le x x) /\ (forall x y z, le x y -> le y z -> le x z) /\
  (forall x y, le x y -> le y x -> x = y) /\ (forall x y, le x y \/ le y x).
