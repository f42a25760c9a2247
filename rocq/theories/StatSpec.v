(** Specification vocabulary for statistics and features. *)
From Verif Require Import RealBase.
Local Open Scope R_scope.

Definition is_max (l : list R) (m : R) : Prop := In m l /\ forall x, In x l -> x <= m.
Definition is_min (l : list R) (m : R) : Prop := In m l /\ forall x, In x l -> m <= x.
(** Arithmetic mean and k-th central moment. *)
Definition average (l : list R) : R := rsum l / INR (length l).
Definition central (k : nat) (l : list R) : R := average (map (fun x => (x - average l) ^ k) l).
Definition is_constant (l : list R) : Prop := forall x y, In x l -> In y l -> x = y.
Definition affine (a b : R) (l : list R) : list R := map (fun x => a * x + b) l.
Definition all_positive (l : list R) : Prop := forall x, In x l -> 0 < x.
(** Sum of squares. *)
Definition sumsq (l : list R) : R := rsum (map (fun x => x * x) l).
(** Product of a list. *)
Fixpoint rprodl (l : list R) : R := match l with [] => 1 | x :: t => x * rprodl t end.
(** Sum over two lists walked together. *)
Fixpoint rsum2 (f : R -> R -> R) (a b : list R) : R :=
  match a, b with x :: s, y :: t => f x y + rsum2 f s t | _, _ => 0 end.
