(** Model of filter/biquad.hpp and filter/biquad_cascade.hpp over exact reals. *)
From Verif Require Import RealBase Cplx.
Local Open Scope R_scope.
Local Open Scope res_scope.

(** biquad.hpp:211-219. *)
Record biquad : Type := mkBq { b2 : R; b1 : R; b0 : R; a2 : R; a1 : R; a0 : R; w0 : R; w1 : R }.

(** biquad.hpp:211-219: the default member initialisers. *)
Definition bq_default : biquad := mkBq 0 0 1 0 0 1 0 0.

(** biquad.hpp:222-230: biquad(a0,a1,a2,b0,b1,b2). *)
Definition bq_coeffs (ca0 ca1 ca2 cb0 cb1 cb2 : R) : res biquad :=
  vb2 <- rdiv cb2 ca0 ;; vb1 <- rdiv cb1 ca0 ;; vb0 <- rdiv cb0 ca0 ;;
  va2 <- rdiv ca2 ca0 ;; va1 <- rdiv ca1 ca0 ;;
  Ok (mkBq vb2 vb1 vb0 va2 va1 1 0 0).

(** biquad.hpp:232-242: biquad(pole, zero); the expectations are assertions. *)
Definition bq_pole_zero (pole zero : C) : res biquad :=
  if Req_EM_T (Im pole) 0 then
    if Req_EM_T (Im zero) 0 then
      Ok (mkBq 0 1 (- Re zero) 0 (- Re pole) 1 0 0)
    else UB
  else UB.

(** biquad.hpp:249-256 and 258-266: the two coefficients of (z - p)(z - q). *)
Definition pair_coeffs (p q : C) : res (R * R) :=
  if Req_EM_T (Im p) 0 then
    if Req_EM_T (Im q) 0 then Ok (- (Re p + Re q), Re p * Re q) else UB
  else
    if Req_EM_T (Re q) (Re p) then
      if Req_EM_T (Im q) (- Im p) then Ok (- (2) * Re p, Cnorm2 p) else UB
    else UB.

(** biquad.hpp:244-268: biquad(pole_first, zero_first, pole_second, zero_second). *)
Definition bq_pairs (p1 z1 p2 z2 : C) : res biquad :=
  pa <- pair_coeffs p1 p2 ;;
  pb <- pair_coeffs z1 z2 ;;
  Ok (mkBq (snd pb) (fst pb) 1 (snd pa) (fst pa) 1 0 0).

(** biquad.hpp:270-274. *)
Definition bq_reset (q : biquad) : biquad :=
  mkBq (b2 q) (b1 q) (b0 q) (a2 q) (a1 q) (a0 q) 0 0.

(** biquad.hpp:276-279. *)
Definition bq_stability (q : biquad) : bool :=
  if Rlt_dec (Rabs (a2 q)) 1 then (if Rlt_dec (Rabs (a1 q)) (1 + a2 q) then true else false) else false.

(** biquad.hpp:281-315: each setter stores the coefficient and resets the state. *)
Definition set_a0 (q : biquad) (v : R) := bq_reset (mkBq (b2 q) (b1 q) (b0 q) (a2 q) (a1 q) v (w0 q) (w1 q)).
Definition set_a1 (q : biquad) (v : R) := bq_reset (mkBq (b2 q) (b1 q) (b0 q) (a2 q) v (a0 q) (w0 q) (w1 q)).
Definition set_a2 (q : biquad) (v : R) := bq_reset (mkBq (b2 q) (b1 q) (b0 q) v (a1 q) (a0 q) (w0 q) (w1 q)).
Definition set_b0 (q : biquad) (v : R) := bq_reset (mkBq (b2 q) (b1 q) v (a2 q) (a1 q) (a0 q) (w0 q) (w1 q)).
Definition set_b1 (q : biquad) (v : R) := bq_reset (mkBq (b2 q) v (b0 q) (a2 q) (a1 q) (a0 q) (w0 q) (w1 q)).
Definition set_b2 (q : biquad) (v : R) := bq_reset (mkBq v (b1 q) (b0 q) (a2 q) (a1 q) (a0 q) (w0 q) (w1 q)).

(** biquad.hpp:325-331. *)
Definition bq_tick (q : biquad) (x : R) : biquad * R :=
  let out := b0 q * x + w0 q in
  (mkBq (b2 q) (b1 q) (b0 q) (a2 q) (a1 q) (a0 q)
        (b1 q * x - a1 q * out + w1 q) (b2 q * x - a2 q * out), out).

(** biquad.hpp:317-323 (and biquad_cascade.hpp:216-222): one output per input. *)
Fixpoint filter_with {S : Type} (tick : S -> R -> S * R) (q : S) (xs : list R) : S * list R :=
  match xs with
  | [] => (q, [])
  | x :: t =>
      let p := tick q x in
      let r := filter_with tick (fst p) t in
      (fst r, snd p :: snd r)
  end.
Definition bq_filter := filter_with bq_tick.

(** biquad.hpp:317-323 when [d_first] and [first] are the same buffer: sample [i] is
    read, then overwritten. *)
Fixpoint filter_inplace_from {S : Type} (tick : S -> R -> S * R) (q : S) (buf : list R) (i n : nat)
  : res (S * list R) :=
  match n with
  | O => Ok (q, buf)
  | S m =>
      x <- load buf i ;;
      let p := tick q x in
      buf' <- store buf i (snd p) ;;
      filter_inplace_from tick (fst p) buf' (i + 1) m
  end.
Definition bq_filter_inplace (q : biquad) (buf : list R) := filter_inplace_from bq_tick q buf 0 (length buf).

(** biquad_cascade.hpp:178-180: an array of N biquads and the number in use. *)
Record cascade : Type := mkCas { num_stage : nat; stages : list biquad }.
Definition cas_new (n : nat) : cascade := mkCas 0 (repeat bq_default n).

(** biquad_cascade.hpp:182-191, 280-282. *)
Definition cas_size (c : cascade) : nat := num_stage c.
Definition cas_capacity (c : cascade) : nat := length (stages c).

(** biquad_cascade.hpp:193-206 (emplace_back, push_back): [meta::ensure]. *)
Definition cas_push_back (c : cascade) (q : biquad) : res cascade :=
  if (num_stage c <? length (stages c))%nat then
    s <- store (stages c) (num_stage c) q ;; Ok (mkCas (num_stage c + 1) s)
  else UB.

(** biquad_cascade.hpp:208-214: [value] goes through the first [n] stages of the array. *)
Fixpoint stages_tick (n : nat) (s : list biquad) (x : R) : res (list biquad * R) :=
  match n, s with
  | O, _ => Ok (s, x)
  | S m, q :: t =>
      let p := bq_tick q x in
      r <- stages_tick m t (snd p) ;; Ok (fst p :: fst r, snd r)
  | S _, [] => UB
  end.
Definition cas_tick (c : cascade) (x : R) : res (cascade * R) :=
  r <- stages_tick (num_stage c) (stages c) x ;; Ok (mkCas (num_stage c) (fst r), snd r).

(** biquad_cascade.hpp:216-222. *)
Fixpoint cas_filter (c : cascade) (xs : list R) : res (cascade * list R) :=
  match xs with
  | [] => Ok (c, [])
  | x :: t =>
      p <- cas_tick c x ;; r <- cas_filter (fst p) t ;; Ok (fst r, snd p :: snd r)
  end.

(** biquad_cascade.hpp:266-271. *)
Definition cas_reset (c : cascade) : cascade :=
  mkCas (num_stage c) (map bq_reset (firstn (num_stage c) (stages c)) ++ skipn (num_stage c) (stages c)).

(** biquad_cascade.hpp:273-276. *)
Definition cas_clear (c : cascade) : cascade := mkCas 0 (stages c).

(** Building a cascade: push_back of each of [qs] on [c]. *)
Fixpoint cas_pushes (c : cascade) (qs : list biquad) : res cascade :=
  match qs with
  | [] => Ok c
  | q :: t => c' <- cas_push_back c q ;; cas_pushes c' t
  end.
