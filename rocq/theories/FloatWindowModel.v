(** Model of the windows without trigonometric functions (windowing/*.hpp) in IEEE formats; see
    FloatModel for the conventions.  Integer factors are converted to the element type. *)
From Coq Require Import ZArith List Bool.
From Flocq Require Import Core BinarySingleNaN.
From Verif Require Import Base WindowModel FloatModel.
Import ListNotations.

Section Format.
Context (prec emax : Z) {Hprec : Prec_gt_0 prec} {Hmax : Prec_lt_emax prec emax}.
Notation fl := (binary_float prec emax).
Notation ofz := (of_Z prec emax).
Notation "x +. y" := (fadd prec emax x y) (at level 50).
Notation "x -. y" := (fsub prec emax x y) (at level 50).
Notation "x *. y" := (fmul prec emax x y) (at level 40).
Notation "x /. y" := (fdiv prec emax x y) (at level 40).

(** bartlett.hpp:36-49. *)
Definition f_bartlett (size : nat) : list fl :=
  let middle := if Nat.even size then (size / 2)%nat else ((size + 1) / 2)%nat in
  let factor := ofz 1 /. ofz (Z.of_nat size - 1) in
  map (fun i => ofz (2 * Z.of_nat i) *. factor) (seq 0 middle) ++
  map (fun i => ofz 2 -. ofz (2 * Z.of_nat i) *. factor) (seq middle (size - middle)).
(** triangular.hpp:44-54; the sum that initialises [rem] is in double, exact below 2^53, and is
    converted to the element type. [ieee_remainder2] is [std::remainder(size, 2)] (WindowModel). *)
Fixpoint ftri_loop (n : nat) (initial rem : fl) : list fl :=
  match n with O => [] | S m => (ofz 1 -. fabs prec emax (initial /. rem)) :: ftri_loop m (initial +. ofz 2) rem end.
Definition f_triangular (size : nat) : list fl :=
  ftri_loop size (ofz (- (Z.of_nat size - 1))) (ofz (Z.of_nat size + ieee_remainder2 (Z.of_nat size))).
(** welch.hpp:43-52; [size / 2] is an integer division. *)
Definition f_welch (size : nat) : list fl :=
  let L := ofz (Z.of_nat (size / 2)) in
  map (fun i => let q := (ofz (Z.of_nat i) -. L) /. L in ofz 1 -. q *. q) (seq 0 size).
End Format.
