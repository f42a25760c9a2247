(** Model of filter/internal/bilinear/bandpass_transformer.hpp and bandstop_transformer.hpp, and of the
    band designers of butterworth_designer.hpp, chebyshev_I_designer.hpp and chebyshev_II_designer.hpp. *)
From Verif Require Import RealBase Cplx BiquadModel DesignModel LayoutModel ChebyModel.
Local Open Scope R_scope.
Local Open Scope res_scope.

(** [std::sqrt] of a complex number: the principal root. The imaginary part takes the sign of the
    argument's; a zero imaginary part counts as +0. *)
Definition Csqrt (z : C) : C :=
  (sqrt ((Cmod z + Re z) / 2),
   (if Rle_dec 0 (Im z) then 1 else -1) * sqrt ((Cmod z - Re z) / 2)).

(** The members of the two transformers that are read after construction. *)
Record band : Type := mkBand { bd_wc : R; bd_wc2 : R; bd_a : R; bd_b : R }.

(** The literal 1e-8. *)
Definition tiny : R := / 10 ^ 8.

(** bandpass_transformer.hpp:39-55 and bandstop_transformer.hpp:39-53, which compute the same values. *)
Definition band_init (fc fw : R) : res band :=
  let ww := 2 * PI * fw in
  let wc2 := 2 * PI * fc - ww / 2 in
  let wc := wc2 + ww in
  let wc2' := if Rlt_dec wc2 tiny then tiny else wc2 in
  let wc' := if Rlt_dec (PI - tiny) wc then PI - tiny else wc in
  a <- rdiv (cos ((wc' + wc2') * (1 / 2))) (cos ((wc' - wc2') * (1 / 2))) ;;
  t <- rtan ((wc' - wc2') * (1 / 2)) ;;
  b <- rdiv 1 t ;;
  Ok (mkBand wc' wc2' a b).

(** bandpass_transformer.hpp:83-105. *)
Definition bp_transform (q : band) (initial : ecomplex) : res (C * C) :=
  match initial with
  | Inf => Ok (RtoC (-1), RtoC 1)
  | Fin i =>
      let a := bd_a q in let b := bd_b q in
      let a2 := a * a in let b2 := b * b in let ab_2 := 2 * (a * b) in
      c <- cdiv (Cadd C1 i) (Csub C1 i) ;;
      let v := addmul C0 (4 * (b2 * (a2 - 1) + 1)) c in
      let v := Cadd v (RtoC (8 * (b2 * (a2 - 1) - 1))) in
      let v := Cmul v c in
      let v := Cadd v (RtoC (4 * (b2 * (a2 - 1) + 1))) in
      let v := Csqrt v in
      let u := Copp v in
      let u := addmul u ab_2 c in
      let u := Cadd u (RtoC ab_2) in
      let v := addmul v ab_2 c in
      let v := Cadd v (RtoC ab_2) in
      let d := Cadd (addmul C0 (2 * (b - 1)) c) (RtoC (2 * (1 + b))) in
      x <- cdiv u d ;;
      y <- cdiv v d ;;
      Ok (x, y)
  end.

(** bandstop_transformer.hpp:84-107. *)
Definition bs_transform (q : band) (initial : ecomplex) : res (C * C) :=
  let a := bd_a q in let b := bd_b q in
  let a2 := a * a in let b2 := b * b in
  c <- match initial with
       | Inf => Ok (RtoC (-1))
       | Fin i => cdiv (Cadd C1 i) (Csub C1 i)
       end ;;
  let u := addmul C0 (4 * (b2 + a2 - 1)) c in
  let u := Cadd u (RtoC (8 * (b2 - a2 + 1))) in
  let u := Cmul u c in
  let u := Cadd u (RtoC (4 * (a2 + b2 - 1))) in
  let u := Csqrt u in
  let v := Cmul u (Copp (RtoC (1 / 2))) in
  let v := Cadd v (RtoC a) in
  let v := addmul v (- a) c in
  let u := Cmul u (RtoC (1 / 2)) in
  let u := Cadd u (RtoC a) in
  let u := addmul u (- a) c in
  let d := RtoC (b + 1) in
  let d := addmul d (b - 1) c in
  x <- cdiv u d ;;
  y <- cdiv v d ;;
  Ok (x, y).

Definition Ceqb (x y : C) : bool :=
  if Req_EM_T (Re x) (Re y) then (if Req_EM_T (Im x) (Im y) then true else false) else false.

(** layout_base.hpp:60-66. *)
Definition is_matched_pair (x y : C) : bool :=
  if Req_EM_T (Im x) 0 then
    (if Req_EM_T (Im y) 0 then true else false) &&
    (if Req_EM_T (Re y) 0 then false else true) && (if Req_EM_T (Re x) 0 then false else true)
  else Ceqb y (Cconj x).

(** layout_base.hpp:153-159. *)
Definition lay_insert_pair (checks : bool) (l : layout) (poles zeros : C * C) : res layout :=
  if Nat.even (num_poles l) then
    if checks && negb (is_matched_pair (fst poles) (snd poles) && is_matched_pair (fst zeros) (snd zeros)) then UB
    else p <- store (pairs l) (num_poles l / 2) (mkPz (fst poles) (Fin (fst zeros)) (snd poles) (Fin (snd zeros))) ;;
         Ok (mkLay (num_poles l + 2) p (lay_w l) (lay_gain l))
  else UB.

(** The pair loops of bandpass_transformer.hpp:63-69 and bandstop_transformer.hpp:60-70; [adj] is the
    adjustment made to the transformed zeros. *)
Fixpoint band_pairs (tr : ecomplex -> res (C * C)) (adj : C * C -> C * C) (analog : layout) (i n : nat) (digital : layout) : res layout :=
  match n with
  | O => Ok digital
  | S m =>
      pr <- lay_get analog i ;;
      p <- tr (Fin (pole1 pr)) ;;
      z0 <- tr (zero1 pr) ;;
      let z := adj z0 in
      d1 <- lay_insert_conjugate digital (fst p) (Fin (fst z)) ;;
      d2 <- lay_insert_conjugate d1 (snd p) (Fin (snd z)) ;;
      band_pairs tr adj analog (i + 1) m d2
  end.

(** The parts common to bandpass_transformer.hpp:57-81 and bandstop_transformer.hpp:55-82: everything but the
    reference frequency. The gain is written at the end; no step in between reads it. *)
Definition band_layout (checks : bool) (tr : ecomplex -> res (C * C)) (adj : C * C -> C * C) (analog digital : layout) : res layout :=
  let np := num_poles analog in
  d1 <- band_pairs tr adj analog 0 (np / 2) (lay_reset digital) ;;
  d2 <- (if Nat.odd np then
           pr <- lay_get analog (np / 2) ;;
           p <- tr (Fin (pole1 pr)) ;;
           z <- tr (zero1 pr) ;;
           lay_insert_pair checks d1 p z
         else Ok d1) ;;
  Ok (lay_set_gain d2 (lay_gain analog)).

(** bandpass_transformer.hpp:78-79. *)
Definition bp_reference (q : band) (analog : layout) : res R :=
  let wn := lay_w analog in
  t1 <- rtan ((bd_wc q + wn) * (1 / 2)) ;;
  t2 <- rtan ((bd_wc2 q + wn) * (1 / 2)) ;;
  s <- rsqrt (t1 + t2) ;;
  Ok (2 * atan s).

(** bandstop_transformer.hpp:64-65. *)
Definition bs_adjust (z : C * C) : C * C := if Ceqb (snd z) (fst z) then (fst z, Cconj (fst z)) else z.

(** bandstop_transformer.hpp:80. *)
Definition bs_reference (fc : R) (analog : layout) : R := if Rlt_dec fc (1 / 4) then PI else lay_w analog.

(** The bodies shared by the band designers of the three families, given the analogue prototype:
    butterworth_designer.hpp:107-116, chebyshev_I_designer.hpp:133-142, chebyshev_II_designer.hpp:130-140,
    with abstract_designer.hpp:93-97. The digital layout holds 2 MaxSize pairs. *)
Definition bandpass_of (checks : bool) (cap : nat) (prototype : res layout) (sample_rate center bandwidth : R) : res cascade :=
  fc <- rdiv center sample_rate ;;
  fw <- rdiv bandwidth sample_rate ;;
  a <- prototype ;;
  q <- band_init fc fw ;;
  d <- band_layout checks (bp_transform q) (fun z => z) a (lay_new (2 * cap)) ;;
  w <- bp_reference q a ;;
  make_cascade (2 * cap) (lay_set_w d w).

(** butterworth_designer.hpp:118-127, chebyshev_I_designer.hpp:144-153, chebyshev_II_designer.hpp:142-152. *)
Definition bandstop_of (checks : bool) (cap : nat) (prototype : res layout) (sample_rate center bandwidth : R) : res cascade :=
  fc <- rdiv center sample_rate ;;
  fw <- rdiv bandwidth sample_rate ;;
  a <- prototype ;;
  q <- band_init fc fw ;;
  d <- band_layout checks (bs_transform q) bs_adjust a (lay_new (2 * cap)) ;;
  make_cascade (2 * cap) (lay_set_w d (bs_reference fc a)).

(** butterworth_designer.hpp:149-162, chebyshev_I_designer.hpp:175-189, chebyshev_II_designer.hpp:174-189.
    The reference frequency computed by the transformer (a NaN here) is overwritten and never read. *)
Definition bandshelf_of (checks : bool) (cap : nat) (prototype : res layout) (sample_rate center bandwidth : R) : res cascade :=
  fc <- rdiv center sample_rate ;;
  fw <- rdiv bandwidth sample_rate ;;
  a <- prototype ;;
  q <- band_init fc fw ;;
  d <- band_layout checks (bp_transform q) (fun z => z) a (lay_new (2 * cap)) ;;
  make_cascade (2 * cap) (lay_set_gain (lay_set_w d (if Rlt_dec fc (1 / 4) then PI else 0)) 1).

(** butterworth_designer.hpp:107-127 and 149-162. *)
Definition butter_bandpass (checks : bool) (cap order : nat) (sample_rate center bandwidth : R) : res cascade :=
  bandpass_of checks cap (butter_analog checks (lay_new cap) order) sample_rate center bandwidth.
Definition butter_bandstop (checks : bool) (cap order : nat) (sample_rate center bandwidth : R) : res cascade :=
  bandstop_of checks cap (butter_analog checks (lay_new cap) order) sample_rate center bandwidth.
Definition butter_bandshelf (checks : bool) (cap order : nat) (sample_rate center bandwidth gain_db : R) : res cascade :=
  bandshelf_of checks cap (butter_shelf_analog checks (lay_new cap) order gain_db) sample_rate center bandwidth.

(** chebyshev_I_designer.hpp:133-153 and 175-189. *)
Definition cheby1_bandpass (checks : bool) (cap order : nat) (sample_rate center bandwidth ripple_db : R) : res cascade :=
  bandpass_of checks cap (cheby1_analog checks (lay_new cap) order ripple_db) sample_rate center bandwidth.
Definition cheby1_bandstop (checks : bool) (cap order : nat) (sample_rate center bandwidth ripple_db : R) : res cascade :=
  bandstop_of checks cap (cheby1_analog checks (lay_new cap) order ripple_db) sample_rate center bandwidth.

(** chebyshev_II_designer.hpp:130-152. *)
Definition cheby2_bandpass (checks : bool) (cap order : nat) (sample_rate center bandwidth stopband_db : R) : res cascade :=
  bandpass_of checks cap (cheby2_analog checks (lay_new cap) order stopband_db) sample_rate center bandwidth.
Definition cheby2_bandstop (checks : bool) (cap order : nat) (sample_rate center bandwidth stopband_db : R) : res cascade :=
  bandstop_of checks cap (cheby2_analog checks (lay_new cap) order stopband_db) sample_rate center bandwidth.

(** chebyshev_I_designer.hpp:175-189 and chebyshev_II_designer.hpp:174-189. *)
Definition cheby_bandshelf (checks : bool) (cap order : nat) (sample_rate center bandwidth gain_db ripple_db : R) : res cascade :=
  bandshelf_of checks cap (cheby_shelf_analog checks (lay_new cap) order gain_db ripple_db) sample_rate center bandwidth.
