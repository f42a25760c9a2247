(** What a window is. *)
From Verif Require Export RealBase.
Local Open Scope R_scope.

(** [sum_k (-1)^k a_k cos (2 pi k i / (N-1))], the textbook cosine-sum window. *)
Definition cosine_sum (a : list R) (N i : nat) : R :=
  sumf (fun k => (-1) ^ k * nth k a 0 * cos (2 * PI * INR k * INR i / (INR N - 1))) (length a).
(** A window reads the same in both directions. *)
Definition symmetric (w : list R) : Prop := rev w = w.
Definition within01 (w : list R) : Prop := forall x, In x w -> 0 <= x <= 1.
(** [1 - |i - c| / h]: a triangle with centre [c] and half-width [h]; the parabola of Welch. *)
Definition triangle (c h : R) (i : nat) : R := 1 - Rabs ((INR i - c) / h).
Definition parabola (c h : R) (i : nat) : R := 1 - ((INR i - c) / h) ^ 2.
