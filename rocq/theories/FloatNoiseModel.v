(** Model of the coloured noise generators (random/noise/brown_noise_generator.hpp,
    random/noise/pink_noise_generator.hpp) for T = int: the arithmetic is that of doubles, every
    assignment converts back to int, and a conversion or a sum of ints out of range is undefined.
    The white source is any list of ints. *)
From Coq Require Import ZArith List Bool.
From Flocq Require Import Core BinarySingleNaN.
From Verif Require Import Base FloatModel.
Import ListNotations.
Local Open Scope Z_scope.
Local Open Scope res_scope.

Definition int_fits (z : Z) : bool := (- 2 ^ 31 <=? z) && (z <? 2 ^ 31).
(** Conversion of a double to int: towards zero, undefined when the result is not an int. *)
Definition to_int (x : double) : res Z := if is_finite x && int_fits (Btrunc x) then Ok (Btrunc x) else UB.
(** Sum of two ints. *)
Definition int_add (x y : Z) : res Z := if int_fits (x + y) then Ok (x + y) else UB.
(** Conversion of an int to double, and the decimal literal a/b of type double. *)
Definition di (z : Z) : double := of_Z 53 1024 z.
Definition lit (a b : Z) : double := fdiv 53 1024 (di a) (di b).
Notation dadd := (fadd 53 1024).
Notation dsub := (fsub 53 1024).
Notation dmul := (fmul 53 1024).

(** brown_noise_generator.hpp:47-52. *)
Definition ibrown_tick (l w : Z) : res (Z * Z) :=
  l1 <- to_int (dadd (di l) (dmul (lit 2 100) (di w))) ;;
  l2 <- to_int (fdiv 53 1024 (di l1) (lit 102 100)) ;;
  y <- to_int (dmul (lit 35 10) (di l2)) ;; Ok (l2, y).
Fixpoint ibrown_run (l : Z) (ws : list Z) : res (list Z) :=
  match ws with [] => Ok [] | w :: t => p <- ibrown_tick l w ;; q <- ibrown_run (fst p) t ;; Ok (snd p :: q) end.
(** brown_noise_generator.hpp:55: the generator starts from 0. *)
Definition ibrown (ws : list Z) : res (list Z) := ibrown_run 0 ws.

(** pink_noise_generator.hpp:61-67. *)
Record ipink := mkIpink { i0 : Z; i1 : Z; i2 : Z; i3 : Z; i4 : Z; i5 : Z; i6 : Z }.
(** [c * b + white * d]. *)
Definition leak (c d : double) (b w : Z) : res Z := to_int (dadd (dmul c (di b)) (dmul (di w) d)).
(** pink_noise_generator.hpp:47-58: the sum of the seven states is a sum of ints. *)
Definition ipink_tick (p : ipink) (w : Z) : res (ipink * Z) :=
  c0 <- leak (lit 99886 100000) (lit 555179 10000000) (i0 p) w ;;
  c1 <- leak (lit 99332 100000) (lit 750759 10000000) (i1 p) w ;;
  c2 <- leak (lit 96900 100000) (lit 1538520 10000000) (i2 p) w ;;
  c3 <- leak (lit 86650 100000) (lit 3104856 10000000) (i3 p) w ;;
  c4 <- leak (lit 55000 100000) (lit 5329522 10000000) (i4 p) w ;;
  c5 <- to_int (dsub (dmul (Bopp (lit 7616 10000)) (di (i5 p))) (dmul (di w) (lit 168980 10000000))) ;;
  s1 <- int_add c0 c1 ;; s2 <- int_add s1 c2 ;; s3 <- int_add s2 c3 ;; s4 <- int_add s3 c4 ;; s5 <- int_add s4 c5 ;;
  s6 <- int_add s5 (i6 p) ;;
  y <- to_int (dmul (dadd (di s6) (dmul (di w) (lit 5362 10000))) (lit 11 100)) ;;
  c6 <- to_int (dmul (di w) (lit 115926 1000000)) ;;
  Ok (mkIpink c0 c1 c2 c3 c4 c5 c6, y).
Fixpoint ipink_run (p : ipink) (ws : list Z) : res (list Z) :=
  match ws with [] => Ok [] | w :: t => q <- ipink_tick p w ;; r <- ipink_run (fst q) t ;; Ok (snd q :: r) end.
Definition ipink_new : ipink := mkIpink 0 0 0 0 0 0 0.
