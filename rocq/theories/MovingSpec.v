(** What "the last N samples, missing history counted as zero" means. *)
From Verif Require Import RealBase SignalSpec.
Local Open Scope R_scope.

(** Mean over the last [n] samples of [f sample]. *)
Definition window_mean (f : R -> R) (n : nat) (xs : list R) (k : nat) : R :=
  sumf (fun j => f (past xs k j)) n / INR n.

(** [m] is the middle order statistic of [l]: it occurs in [l], and at most half
    of the elements lie strictly on either side. *)
Definition is_median (m : R) (l : list R) : Prop :=
  In m l /\
  (2 * length (filter (fun x => if Rlt_dec x m then true else false) l) <= length l)%nat /\
  (2 * length (filter (fun x => if Rlt_dec m x then true else false) l) <= length l)%nat.

(** The (at most) [n] most recent values of [zs], oldest first. *)
Definition recent {A : Type} (n : nat) (zs : list A) : list A := skipn (length zs - n) zs.

(** What storage cell 0 of a window of size [n] holds after the stream [xs]: the
    latest sample whose number is a multiple of [n]. *)
Definition stale_cell (n : nat) (xs : list R) : R :=
  match xs with
  | [] => 0
  | _ => nth ((length xs - 1) / n * n) xs 0
  end.

(** Output for the last sample of [zs] by a moving average of size [n] that was
    emptied just before [zs], its accumulator being [a] and its cell 0 holding [c]:
    the sum of the recent samples is off by [a - c] and by one copy of the first
    new sample for each later sample that arrived before the window was full. *)
Definition after_reset (n : nat) (a c : R) (zs : list R) : R :=
  match zs with
  | [] => 0
  | z :: t =>
      (rsum (recent n zs) + (a - c) - INR (Nat.min (length t) (n - 1)) * z) / INR (Nat.min n (length zs))
  end.
