(** Model of include/edsp/algorithm and of the parts of include/edsp/statistics it uses.
    Ranges live in one memory [list R]; a range is an offset and a length; an access
    outside the memory is UB.  Source and destination may overlap, as in C++.
    Element values are exact reals (integer value types are not modelled for the
    arithmetic algorithms). *)
From Verif Require Export RealBase.
Local Open Scope R_scope.
Local Open Scope res_scope.

(** [std::transform(first, first+n, d_first, f)]. *)
Fixpoint mtransform (f : R -> res R) (mem : list R) (first d_first n : nat) : res (list R) :=
  match n with
  | O => Ok mem
  | S m =>
      x <- load mem first ;;
      y <- f x ;;
      mem' <- store mem d_first y ;;
      mtransform f mem' (S first) (S d_first) m
  end.

(** [std::copy(first, first+n, d_first)]. *)
Fixpoint mcopy (mem : list R) (first d_first n : nat) : res (list R) :=
  match n with
  | O => Ok mem
  | S m =>
      x <- load mem first ;;
      mem' <- store mem d_first x ;;
      mcopy mem' (S first) (S d_first) m
  end.

(** [std::fill(first, first+n, v)]. *)
Fixpoint mfill (mem : list R) (first n : nat) (v : R) : res (list R) :=
  match n with
  | O => Ok mem
  | S m => mem' <- store mem first v ;; mfill mem' (S first) m v
  end.

(** amplifier.hpp:46-50. *)
Definition amplifier (mem : list R) (first n d_first : nat) (factor : R) : res (list R) :=
  mtransform (fun val => Ok (factor * val)) mem first d_first n.

(** amplifier.hpp:72-78. *)
Definition clip_amp (factor mn mx val : R) : R :=
  let scaled := factor * val in
  if Rlt_dec scaled mn then mn else if Rlt_dec mx scaled then mx else scaled.
Definition amplifier_clipped (mem : list R) (first n d_first : nat) (factor mn mx : R) : res (list R) :=
  mtransform (fun val => Ok (clip_amp factor mn mx val)) mem first d_first n.

(** clipper.hpp:42-47. *)
Definition clip_fn (mn mx val : R) : R :=
  if Rlt_dec val mn then mn else if Rlt_dec mx val then mx else val.
Definition clipper (mem : list R) (first n d_first : nat) (mn mx : R) : res (list R) :=
  mtransform (fun val => Ok (clip_fn mn mx val)) mem first d_first n.

(** [std::floor], [std::ceil], [std::trunc], [std::round] (halves away from zero), [std::fabs]
    on exact reals. *)
Definition cfloor (x : R) : R := IZR (Int_part x).
Definition cceil (x : R) : R := - cfloor (- x).
Definition ctrunc (x : R) : R := if Rlt_dec x 0 then cceil x else cfloor x.
Definition cround (x : R) : R := if Rlt_dec x 0 then - cfloor (- x + / 2) else cfloor (x + / 2).

(** ceil.hpp:40-44, floor.hpp:40-44, fix.hpp:40-44, round.hpp:40-44, rectify.hpp:41-45. *)
Definition alg_ceil (mem : list R) (first n d_first : nat) := mtransform (fun v => Ok (cceil v)) mem first d_first n.
Definition alg_floor (mem : list R) (first n d_first : nat) := mtransform (fun v => Ok (cfloor v)) mem first d_first n.
Definition alg_fix (mem : list R) (first n d_first : nat) := mtransform (fun v => Ok (ctrunc v)) mem first d_first n.
Definition alg_round (mem : list R) (first n d_first : nat) := mtransform (fun v => Ok (cround v)) mem first d_first n.
Definition alg_rectify (mem : list R) (first n d_first : nat) := mtransform (fun v => Ok (Rabs v)) mem first d_first n.

(** concatenate.hpp:43-46. *)
Definition concatenate (mem : list R) (first1 n1 first2 n2 d_first : nat) : res (list R) :=
  mem1 <- mcopy mem first1 d_first n1 ;;
  mcopy mem1 first2 (d_first + n1) n2.

(** padder.hpp:51-57; the [expects] of line 54 is a precondition. *)
Definition padder (mem : list R) (first n d_first dn : nat) : res (list R) :=
  if (dn <? n)%nat then UB else
  mem1 <- mcopy mem first d_first n ;;
  mfill mem1 (d_first + n) (dn - n) 0.

(** [std::adjacent_difference(first, first+n, d_first)] (derivative.hpp:46-48): the standard
    algorithm keeps the previous input in a local copy. *)
Fixpoint adj_loop (mem : list R) (prev : R) (first d_first n : nat) : res (list R) :=
  match n with
  | O => Ok mem
  | S m =>
      val <- load mem first ;;
      mem' <- store mem d_first (val - prev) ;;
      adj_loop mem' val (S first) (S d_first) m
  end.
Definition derivative (mem : list R) (first n d_first : nat) : res (list R) :=
  match n with
  | O => Ok mem
  | S m =>
      val <- load mem first ;;
      mem' <- store mem d_first val ;;
      adj_loop mem' val (S first) (S d_first) m
  end.

(** linspace.hpp:39-49 and logspace.hpp:38-48.  [n] is the truncated N.  The increment is a
    division by [n - 1]; it is non-finite for n = 1, where it is added to a value that is never
    used, so only later iterations look at it. *)
Fixpoint space_loop (g : R -> R) (mem : list R) (d_first : nat) (x1 : R) (increment : res R) (n : nat) : res (list R) :=
  match n with
  | O => Ok mem
  | S m =>
      mem' <- store mem d_first (g x1) ;;
      match m with
      | O => Ok mem'
      | S _ => inc <- increment ;; space_loop g mem' (S d_first) (x1 + inc) increment m
      end
  end.
Definition linspace (mem : list R) (d_first : nat) (x1 x2 : R) (n : nat) : res (list R) :=
  space_loop (fun x => x) mem d_first x1 (rdiv (x2 - x1) (INR n - 1)) n.
Definition logspace (mem : list R) (d_first : nat) (x1 x2 : R) (n : nat) : res (list R) :=
  space_loop (fun x => Rpower 10 x) mem d_first x1 (rdiv (x2 - x1) (INR n - 1)) n.

(** ** Searching; any element type with its [==] and [<]. *)

(** [std::find]: offset of the first element equal to the value, or the length. *)
Fixpoint std_find {A} (eqb : A -> A -> bool) (l : list A) (v : A) : nat :=
  match l with
  | [] => 0
  | x :: t => if eqb x v then 0 else S (std_find eqb t v)
  end.
(** linear_search.hpp:38-40. *)
Definition linear_search {A} (eqb : A -> A -> bool) (l : list A) (v : A) : nat := std_find eqb l v.
(** meta/contains.hpp:32-36. *)
Definition contains {A} (eqb : A -> A -> bool) (l : list A) (v : A) : bool := negb (std_find eqb l v =? length l)%nat.
(** Conversion to std::int32_t (modular). *)
Definition to_int32 (z : Z) : Z := ((z + 2 ^ 31) mod 2 ^ 32 - 2 ^ 31)%Z.
(** indexof.hpp:38-42. *)
Definition index_of {A} (eqb : A -> A -> bool) (l : list A) (v : A) : Z :=
  let element := std_find eqb l v in
  to_int32 (if (element =? length l)%nat then -1 else Z.of_nat element).

(** [std::lower_bound]: the halving loop of the usual implementations; [fuel] bounds the number
    of iterations and [len] of it always suffices (lemma lower_bound_ok in AlgProofs). *)
Fixpoint lower_bound_loop {A} (ltb : A -> A -> bool) (l : list A) (v : A) (first len fuel : nat) : res nat :=
  match len with
  | O => Ok first
  | S _ =>
      match fuel with
      | O => UB
      | S fu =>
          let half := (len / 2)%nat in
          let middle := (first + half)%nat in
          x <- load l middle ;;
          if ltb x v then lower_bound_loop ltb l v (middle + 1) (len - half - 1) fu
          else lower_bound_loop ltb l v first half fu
      end
  end.
Definition lower_bound {A} (ltb : A -> A -> bool) (l : list A) (v : A) : res nat :=
  lower_bound_loop ltb l v 0 (length l) (length l).
(** binary_search.hpp:41-44. *)
Definition binary_search {A} (ltb eqb : A -> A -> bool) (l : list A) (v : A) : res nat :=
  it <- lower_bound ltb l v ;;
  if (it =? length l)%nat then Ok (length l)
  else x <- load l it ;; Ok (if eqb v x then it else length l).

(** [std::equal(first1, last1, first2, last2, p)] (equal.hpp:40-42, 54-56). *)
Fixpoint equal_fn {A} (p : A -> A -> bool) (a b : list A) : bool :=
  match a, b with
  | [], [] => true
  | x :: s, y :: t => if p x y then equal_fn p s t else false
  | _, _ => false
  end.
